(** Sessions in which the caller changes the extra value between the calls, against
    derivation trees and against the declarations (C42). *)
From Verif Require Import Base Syntax BaseFacts FrontEnd First States Actions Tables Runtime User Session
  PackFacts Spec WfGrammar FirstFacts ClosureFacts AutoFacts LalrFacts ActFacts CompFacts GroupFacts
  TabFacts LookFacts PipeFacts RunFacts SoundFacts AbsFacts TermFacts CompleteFacts
  FrontFacts DeclSpec DeclFacts GramFacts LangFacts MeanSpec TimeSpec SafeFacts TypeFacts MeanFacts.
Open Scope string_scope. Open Scope nat_scope. Open Scope list_scope.

(** ** Values of trees whose tokens carry what the caller does after them *)
Section EvalWith.
Context {M X E R : Type} (h : hooks M X E R).
Notation M' := (M * (X -> X))%type.

Fixpoint evalw (tr : tree M') (x : X) : evres M X E :=
  match tr with
  | TTok _ (m, f) => EvOk (f x) m
  | TNode r ts =>
      match (fix go (ts : list (tree M')) (x : X) : evres (list M) X E :=
               match ts with
               | [] => EvOk x []
               | u :: ts' =>
                   match evalw u x with
                   | EvOk x' v => match go ts' x' with EvOk x'' vs => EvOk x'' (v :: vs) | EvErr x'' e => EvErr x'' e | EvPanic => EvPanic end
                   | EvErr x' e => EvErr x' e
                   | EvPanic => EvPanic
                   end
               end) ts x with
      | EvOk x' vs => finish h r vs x'
      | EvErr x' e => EvErr x' e
      | EvPanic => EvPanic
      end
  end.
Fixpoint evalw_list (ts : list (tree M')) (x : X) : evres (list M) X E :=
  match ts with
  | [] => EvOk x []
  | u :: ts' =>
      match evalw u x with
      | EvOk x' v => match evalw_list ts' x' with EvOk x'' vs => EvOk x'' (v :: vs) | EvErr x'' e => EvErr x'' e | EvPanic => EvPanic end
      | EvErr x' e => EvErr x' e
      | EvPanic => EvPanic
      end
  end.

Lemma evalw_node r ts x : evalw (TNode r ts) x =
  match evalw_list ts x with EvOk x' vs => finish h r vs x' | EvErr x' e => EvErr x' e | EvPanic => EvPanic end.
Proof. reflexivity. Qed.

Lemma evalw_list_app ts us x : evalw_list (ts ++ us) x =
  match evalw_list ts x with
  | EvOk x' vs => match evalw_list us x' with EvOk x'' ws => EvOk x'' (vs ++ ws) | EvErr x'' e => EvErr x'' e | EvPanic => EvPanic end
  | EvErr x' e => EvErr x' e
  | EvPanic => EvPanic
  end.
Proof.
  revert x. induction ts as [|t ts IH]; intros x; cbn [app evalw_list].
  - destruct (evalw_list us x); auto.
  - destruct (evalw t x) as [x' v|x' e|]; auto. rewrite IH. destruct (evalw_list ts x') as [x'' vs|x'' e|]; auto.
    destruct (evalw_list us x''); auto.
Qed.
Lemma evalw_list_length ts : forall x x' vs, evalw_list ts x = EvOk x' vs -> List.length vs = List.length ts.
Proof.
  induction ts as [|t ts IH]; intros x x' vs H; cbn in H; [injection H as <- <-; auto|].
  destruct (evalw t x) as [x1 v|x1 e|]; try discriminate. destruct (evalw_list ts x1) as [x2 ws|x2 e|] eqn:E0; try discriminate.
  injection H as <- <-. cbn. f_equal. eapply IH; eauto.
Qed.
Lemma evalw_reduce (tr1 tr2 : list (tree M')) x0 x (st1 st2 : list (entry M)) :
  List.length tr1 = List.length st1 ->
  evalw_list (tr2 ++ tr1) x0 = EvOk x (map e_minor (rev (st1 ++ st2))) ->
  exists x1, evalw_list tr2 x0 = EvOk x1 (map e_minor (rev st2)) /\ evalw_list tr1 x1 = EvOk x (rev (map e_minor st1)).
Proof.
  intros L H. rewrite evalw_list_app in H. destruct (evalw_list tr2 x0) as [x1 vs|x1 e|] eqn:E2; try discriminate.
  destruct (evalw_list tr1 x1) as [x2 ws|x2 e|] eqn:E1; try discriminate. injection H as -> H.
  rewrite rev_app_distr, map_app, map_rev, map_rev in H.
  assert (HL : List.length ws = List.length (rev (map e_minor st1))).
  { rewrite (evalw_list_length _ _ _ _ E1), rev_length, map_length. auto. }
  exists x1. rewrite map_rev.
  assert (HS : forall (a b c d : list M), a ++ b = c ++ d -> List.length b = List.length d -> a = c /\ b = d).
  { clear. induction a as [|u a IH]; intros b [|v c] d H HL; simpl in *; auto.
    - exfalso. subst b. simpl in HL. rewrite app_length in HL. lia.
    - exfalso. apply (f_equal (@List.length M)) in H. simpl in H. rewrite app_length in H. lia.
    - injection H as -> H. destruct (IH _ _ _ H HL) as [-> ->]. auto. }
  destruct (HS _ _ _ _ H HL) as [-> ->]. auto.
Qed.
End EvalWith.

(** ** Accepted sessions *)
Section Sound.
Context (g : grammar) (p p3 p4 : pst) (t : tables) (P : Pipe g p p3 p4 t).
Context {M X E R : Type} (h : hooks M X E R).
Let W := pp_wf _ _ _ _ _ P.
Let A := pp_aut _ _ _ _ _ P.
Notation ns := (List.length (p_states p)).
Notation nr := (List.length (g_rules g)).
Notation num := (state_num g p4).
Notation M' := (M * (X -> X))%type.
Notation spine := (spine g p p4 (M := M)).
Notation shape := (shape g (M := M')).

(** A call of parse() with a token and what the caller does after it: [Some f] while the
    token has been shifted and [f] is still to come. *)
Definition goodw (x0 : X) (w : list (nat * M')) (x : X) (pp : parser M X R) : Prop :=
  exists st Xs s bot trees, spine st Xs s /\ ps_stack pp = st ++ [bot] /\ e_state bot = num 0 /\
    shape (tok_match g) w trees Xs /\ evalw_list h trees x0 = EvOk x (map e_minor (rev st)).
Definition finishedw (x0 : X) (w : list (nat * M')) (pp : parser M X R) : Prop :=
  exists tree v root, ps_status pp = Accepted root /\ sentence g tree w /\ evalw h tree x0 = EvOk (ps_extra pp) v /\ h_accept h v = Some root.

Lemma goodw_reduce x0 w (pp pp' : parser M X R) st Xs s bot trees r :
  spine st Xs s -> ps_stack pp = st ++ [bot] -> e_state bot = num 0 ->
  shape (tok_match g) w trees Xs -> evalw_list h trees x0 = EvOk (ps_extra pp) (map e_minor (rev st)) ->
  item p s (r, rlen g r) -> yy_reduce t h pp r = ROk tt pp' ->
  (r_lhs (grule g r) = g_start g /\ finishedw x0 w pp') \/
  (r_lhs (grule g r) <> g_start g /\ ps_status pp' = ps_status pp /\ goodw x0 w (ps_extra pp') pp').
Proof.
  intros Hsp Est Hb Hsh Hev Hi Hred. pose proof (item_rule g p p3 p4 t P _ _ _ Hi) as Hr.
  destruct (yy_reduce_eq g p p3 p4 t P h pp r st Xs s bot Hsp Est Hb Hi) as (st1 & st2 & Xs1 & Xs2 & s0 & -> & -> & L & HX & Hs & HC).
  destruct (shape_reduce g _ _ _ _ _ _ Hsh Hr HX) as (tr1 & tr2 & -> & L1 & Hd & Hsh').
  destruct (evalw_reduce h tr1 tr2 x0 _ st1 st2 ltac:(congruence) Hev) as (x1 & E2 & E1).
  destruct HC as [(Hst & -> & -> & Hy)|(Hst & q & Hq & Hy)]; rewrite Hred in Hy.
  - left. split; auto. destruct (h_reduce h r (rev (map e_minor st1)) (ps_extra pp)) as [[x [v|e]]|] eqn:Eh; try discriminate.
    destruct (h_accept h v) as [root|] eqn:Ea; [|discriminate]. injection Hy as ->.
    assert (Ev : evalw h (TNode r tr1) x1 = EvOk x v) by (rewrite evalw_node, E1; unfold finish; now rewrite Eh).
    assert (tr2 = []) as ->.
    { destruct Hsh' as [F Y]. apply SoundFacts.Forall2_length in F. rewrite app_length in F. simpl in F. destruct tr2; auto. simpl in F. lia. }
    exists (TNode r tr1), v, root. splits; auto.
    + destruct Hsh' as [F Y]. split; [now rewrite <- Hst|]. simpl in Y. now rewrite app_nil_r in Y.
    + simpl in E2. injection E2 as <-. exact Ev.
  - right. destruct (h_reduce h r (rev (map e_minor st1)) (ps_extra pp)) as [[x [v|e]]|] eqn:Eh; try discriminate.
    symmetry in Hy. apply yy_shift_ok in Hy. subst pp'. splits; auto.
    exists (mkEntry (num q) (r_lhs (grule g r)) v :: st2), (r_lhs (grule g r) :: Xs2), q, bot, (tr2 ++ [TNode r tr1]).
    splits; auto.
    + econstructor; eauto.
    + assert (Ev : evalw h (TNode r tr1) x1 = EvOk x v) by (rewrite evalw_node, E1; unfold finish; now rewrite Eh).
      rewrite evalw_list_app, E2. cbn [evalw_list]. rewrite Ev. cbn. now rewrite map_app.
Qed.

Lemma tokenw_good fuel f : forall x0 w (pp pp' : parser M X R) major minor,
  ps_status pp = Normal -> goodw x0 w (ps_extra pp) pp -> tokenish g major ->
  parse_token_2 fuel t h pp major minor = ROk tt pp' ->
  dropped pp' \/ (major = 0 /\ finishedw x0 w pp') \/
  (major <> 0 /\ ps_status pp' = Normal /\ goodw x0 (w ++ [(major, (minor, f))]) (f (ps_extra pp')) pp').
Proof.
  induction fuel as [|fuel IH]; intros x0 w pp pp' major minor Hn Hg Ht H; [discriminate|].
  cbn [parse_token_2] in H. rewrite Hn in H. pose proof Hg as (st & Xs & s & bot & trees & Hsp & Est & Hb & Hsh & Hev).
  destruct (spine_top g p p4 _ _ _ bot Hsp Hb) as (top & rest & Et & Etop). rewrite Est, Et in H. rewrite Etop in H.
  destruct (shift_answer g p p3 p4 t P s major (spine_range g p p3 p4 t P _ _ _ Hsp) Ht) as (a & Ha & HA). rewrite Ha in H.
  rewrite (t_ns g p p3 p4 t P), (t_nr g p p3 p4 t P) in H.
  inversion HA as [Y q Hq Hm Hz Ea|r b Hl Hz Ea|Ea]; subst a.
  - pose proof (num_lt g p p3 p4 t P q (proj1 (au_edge g p A _ _ _ Hq))) as Hlt. apply Nat.ltb_lt in Hlt. rewrite Hlt in H.
    destruct (Nat.eqb_spec major 0) as [|_]; [contradiction|].
    destruct (yy_shift t h pp (num q) major minor) as [[] p1|e p1| |] eqn:Es; try discriminate. simpl in H. injection H as <-.
    apply yy_shift_ok in Es. subst p1. right. right. splits; auto.
    exists (mkEntry (num q) major minor :: st), (Y :: Xs), q, bot, (trees ++ [TTok major (minor, f)]). splits; auto.
    + econstructor; eauto.
    + cbn. now rewrite Est.
    + now apply shape_push.
    + rewrite evalw_list_app, Hev. cbn. now rewrite map_app.
  - replace (ns + r <? ns) with false in H by (symmetry; apply Nat.ltb_ge; lia).
    pose proof (item_rule g p p3 p4 t P _ _ _ (look_item _ _ _ _ Hl)) as Hr. replace (ns + r <? ns + nr) with true in H by (symmetry; apply Nat.ltb_lt; lia).
    replace (ns + r - ns) with r in H by lia.
    destruct (yy_reduce t h pp r) as [[] p1|e p1| |] eqn:Er; try discriminate. simpl in H.
    destruct (goodw_reduce _ _ _ _ _ _ _ _ _ _ Hsp Est Hb Hsh Hev (look_item _ _ _ _ Hl) Er) as [(Hst & HF)|(Hst & Hs1 & HG)].
    + right. left. split; [auto|]. destruct fuel; [discriminate|]. cbn [parse_token_2] in H. destruct HF as (tr & v & root & Hs1 & HF).
      rewrite Hs1 in H. injection H as <-. exists tr, v, root. auto.
    + apply (IH x0 w p1 pp' major minor); auto. now rewrite Hs1.
  - replace (ns + nr <? ns) with false in H by (symmetry; apply Nat.ltb_ge; lia). rewrite Nat.ltb_irrefl, Nat.eqb_refl in H.
    left. apply syntax_error_ok in H as [l Hl]. exists major. rewrite Hl. now left.
Qed.

Lemma parse_tokenw_good fuel f x0 w (pp pp' : parser M X R) major minor :
  ps_status pp = Normal -> goodw x0 w (ps_extra pp) pp -> tokenish g major -> parse_token fuel t h pp major minor = ROk tt pp' ->
  dropped pp' \/ (major = 0 /\ finishedw x0 w pp') \/
  (major <> 0 /\ ps_status pp' = Normal /\ goodw x0 (w ++ [(major, (minor, f))]) (f (ps_extra pp')) pp').
Proof.
  intros Hn Hg Ht H. unfold parse_token in H. rewrite Hn in H.
  destruct (parse_token_2 fuel t h pp major minor) as [[] p1|e p1| |] eqn:E2; try discriminate. injection H as <-.
  eapply tokenw_good; eauto.
Qed.

Lemma parse_with_ext fuel ts : forall pp pp', parse_with fuel t h pp ts = ROk tt pp' -> dropped pp -> dropped pp'.
Proof.
  induction ts as [|[a [m f]] ts IH]; intros pp pp' H D; cbn [parse_with] in H; [now injection H as <-|].
  destruct (parse_token fuel t h pp a m) as [[] p1|e p1| |] eqn:E1; try discriminate. cbn [rbind] in H. eapply IH; [exact H|].
  pose proof (parse_token_ext t h fuel pp a m) as HE. rewrite E1 in HE. exact (dropped_ext _ _ HE D).
Qed.

Theorem parse_with_good fuel ts : forall x0 w (pp pp' : parser M X R),
  tokens_ok g ts -> ps_status pp = Normal -> goodw x0 w (ps_extra pp) pp -> parse_with fuel t h pp ts = ROk tt pp' -> ~ dropped pp' ->
  ps_status pp' = Normal /\ goodw x0 (w ++ ts) (ps_extra pp') pp'.
Proof.
  induction ts as [|[a [m f]] ts IH]; intros x0 w pp pp' Hts Hn Hg H Hd; cbn [parse_with] in H.
  - injection H as <-. rewrite app_nil_r. auto.
  - destruct (parse_token fuel t h pp a m) as [[] p1|e p1| |] eqn:E1; try discriminate. cbn [rbind] in H.
    pose proof (Hts a _ (or_introl eq_refl)) as Ha.
    destruct (parse_tokenw_good _ f _ _ _ _ _ _ Hn Hg (or_introl (proj2 Ha)) E1) as [D|[[Hz _]|(Hz & Hn1 & Hg1)]].
    + exfalso. apply Hd. exact (parse_with_ext _ _ _ _ H D).
    + lia.
    + replace (w ++ (a, (m, f)) :: ts) with ((w ++ [(a, (m, f))]) ++ ts) by (rewrite <- app_assoc; reflexivity).
      refine (IH _ _ _ _ _ _ _ H Hd); auto. intros a' m' Hin. apply (Hts a' m'). now right.
Qed.

Theorem run_with_sound fuel x ts r x' pp : tokens_ok g ts -> run_with fuel t h x ts = ROk (r, x') pp -> ~ dropped pp ->
  exists tree v, sentence g tree ts /\ evalw h tree x = EvOk x' v /\ h_accept h v = Some r.
Proof.
  intros Hts H Hd. unfold run_with in H. destruct (parse_with fuel t h (new_parser h x) ts) as [[] p1|e p1| |] eqn:E1; try discriminate.
  cbn [rbind] in H. unfold end_of_input in H.
  destruct (parse_token fuel t h p1 0 (h_unit h)) as [[] p2|e p2| |] eqn:E2; try discriminate. cbn [rbind] in H.
  destruct (ps_status p2) as [| |root] eqn:Es; try discriminate. injection H as <- <- <-.
  assert (Hd1 : ~ dropped p1).
  { intros D. apply Hd. eapply dropped_ext; [|exact D]. pose proof (parse_token_ext t h fuel p1 0 (h_unit h)) as HE. now rewrite E2 in HE. }
  assert (Hnew : goodw x [] x (new_parser h x)).
  { exists [], [], 0, (mkEntry 0 0 (h_unit h)), []. splits; auto; [constructor|simpl; symmetry; eapply num_0; eauto|]. split; auto. constructor. }
  destruct (parse_with_good fuel ts x [] (new_parser h x) p1 Hts eq_refl Hnew E1 Hd1) as [Hn Hg].
  assert (Ht : tokenish g 0) by (left; apply (wg_nterm_pos g W)).
  destruct (parse_tokenw_good _ (fun y => y) _ _ _ _ _ _ Hn Hg Ht E2) as [D|[[_ HF]|(Hz & _)]]; [contradiction| |contradiction].
  destruct HF as (tree & v & root' & Hs & Hsent & Hev & Hac). exists tree, v. splits; auto. congruence.
Qed.
End Sound.

(** ** A session does what the events of another run of the same tokens say *)
Section Popv.
Context {M : Type}.
Definition popv (n : nat) (vs : list M) : option (list M * list M) :=
  if n <=? List.length vs then Some (rev (firstn n vs), skipn n vs) else None.

Lemma pop_n_popv n : forall (st : list (entry M)) acc, pop_n n st acc =
  match popv n (map e_minor st) with Some (vs, _) => Some (vs ++ acc, skipn n st) | None => None end.
Proof.
  unfold popv. induction n as [|n IH]; intros [|e st] acc; cbn [pop_n map List.length Nat.leb firstn skipn rev app]; auto.
  rewrite IH. destruct (n <=? List.length (map e_minor st)); auto. now rewrite <- app_assoc.
Qed.
Lemma popv_skip n (st : list (entry M)) vs rest : popv n (map e_minor st) = Some (vs, rest) -> rest = map e_minor (skipn n st).
Proof. unfold popv. destruct (_ <=? _); [|discriminate]. intros H. injection H as _ <-. apply skipn_map. Qed.

End Popv.

Section Exec.
Context (t : tables).
Context {M X E R : Type} (h : hooks M X E R).

Fixpoint exec (evs : list event) (ts : list (M * (X -> X))) (vs : list M) (x : X) : evres (list M) X E :=
  match evs with
  | [] => EvOk x vs
  | EvShift _ :: evs' => match ts with (m, f) :: ts' => exec evs' ts' (m :: vs) (f x) | [] => EvPanic end
  | EvReduce r :: evs' =>
      match nth_error (t_rules t) r with
      | None => EvPanic
      | Some rr =>
          match popv (List.length (rr_rhs rr)) vs with
          | None => EvPanic
          | Some (args, rest) =>
              match finish h r args x with EvOk x' v => exec evs' ts (v :: rest) x' | EvErr x' e => EvErr x' e | EvPanic => EvPanic end
          end
      end
  | EvAccept :: evs' => match vs with v :: _ => match h_accept h v with Some _ => exec evs' ts vs x | None => EvPanic end | [] => EvPanic end
  | _ :: _ => EvPanic
  end.

Context {M1 X1 E1 R1 : Type} (h1 : hooks M1 X1 E1 R1).
Definition same_states (st : list (entry M)) (st1 : list (entry M1)) : Prop := map e_state st = map e_state st1.

Definition alert (e : event) : Prop := match e with EvShift _ | EvReduce _ | EvAccept => False | _ => True end.

Lemma same_length st st1 : same_states st st1 -> List.length st = List.length st1.
Proof. intros H. apply (f_equal (@List.length _)) in H. now rewrite !map_length in H. Qed.
Lemma same_top st e1 st1 : same_states st (e1 :: st1) -> exists e st', st = e :: st' /\ e_state e = e_state e1 /\ same_states st' st1.
Proof. destruct st as [|e st]; intros H; [discriminate|]. injection H as H0 H. eauto. Qed.
Lemma same_skip n st st1 : same_states st st1 -> same_states (skipn n st) (skipn n st1).
Proof. unfold same_states. intros H. now rewrite <- !skipn_map, H. Qed.

Definition going (e : event) : Prop := match e with EvShift _ | EvReduce _ | EvAccept => True | _ => False end.

Lemma exec_token n : forall (pp : parser M X R) (qq qq' : parser M1 X1 R1) a m m1 f ts ts0 e1 e2 xf vf,
  ps_status pp = Normal -> ps_status qq = Normal -> same_states (ps_stack pp) (ps_stack qq) ->
  parse_token_2 n t h1 qq a m1 = ROk tt qq' -> ps_log qq' = rev e1 ++ ps_log qq -> Forall going (ps_log qq') ->
  (a <> 0 -> ts0 = (m, f) :: ts) ->
  exec (e1 ++ e2) ts0 (map e_minor (ps_stack pp)) (ps_extra pp) = EvOk xf vf ->
  exists pp', parse_token_2 n t h pp a m = ROk tt pp' /\
    ((a <> 0 /\ ps_status pp' = Normal /\ ps_status qq' = Normal /\ same_states (ps_stack pp') (ps_stack qq') /\
      exec e2 ts (map e_minor (ps_stack pp')) (f (ps_extra pp')) = EvOk xf vf) \/
     (exists v vs root root1, ps_status pp' = Accepted root /\ ps_status qq' = Accepted root1 /\ h_accept h v = Some root /\ exec e2 ts0 (v :: vs) (ps_extra pp') = EvOk xf vf)).
Proof.
  induction n as [|n IH]; intros pp qq qq' a m m1 f ts ts0 e1 e2 xf vf Hn Hn1 Hs H HL HG Hts HE; [discriminate|].
  cbn [parse_token_2] in H |- *. rewrite Hn1 in H. rewrite Hn. destruct (ps_stack qq) as [|top1 rest1] eqn:Eq; [discriminate|].
  destruct (same_top _ _ _ Hs) as (top & rest & Ep & Et & Hs'). rewrite Ep, Et. destruct (find_shift_action t (e_state top1) a) as [c| |] eqn:Ef; try discriminate.
  destruct (c <? t_nstate t) eqn:Ec.
  - destruct (a =? 0) eqn:Ea; [discriminate|]. apply Nat.eqb_neq in Ea. unfold yy_shift in *. rewrite Ep, Eq in *. rewrite (same_length _ _ Hs) in *.
    destruct (negb (t_limit t =? 0) && (t_limit t <=? List.length (top1 :: rest1))); [destruct (h_overflow h1 a m1 (ps_extra qq)); discriminate|].
    cbn [rbind] in *. injection H as <-. cbn in HL. change (EvShift a :: ps_log qq) with ([EvShift a] ++ ps_log qq) in HL. apply app_inv_tail in HL. apply (f_equal (@rev _)) in HL. rewrite rev_involutive in HL. cbn in HL. subst e1. rewrite (Hts Ea) in HE.
    eexists. split; [reflexivity|]. left. splits; auto.
    exact (f_equal (cons c) Hs).
  - destruct (c <? t_nstate t + t_nrule t) eqn:Ec2.
    2:{ destruct (c =? t_nstate t + t_nrule t); [|discriminate]. apply syntax_error_ok in H as [l Hl]. rewrite Hl in HG. inversion HG; contradiction. }
    set (r := c - t_nstate t) in *. destruct (yy_reduce t h1 qq r) as [[] q1|? ?| |] eqn:Er; try discriminate. cbn [rbind] in H.
    unfold yy_reduce in Er |- *. destruct (nth_error (t_rules t) r) as [rr|] eqn:Err; [|discriminate].
    rewrite pop_n_popv in Er. rewrite pop_n_popv. destruct (popv (List.length (rr_rhs rr)) (map e_minor (ps_stack qq))) as [[vs1 ws1]|] eqn:Epop1; [|discriminate].
    destruct (h_reduce h1 r (vs1 ++ []) (ps_extra qq)) as [[x1 [v1|er]]|]; try discriminate.
    assert (Lk : exists vs ws, popv (List.length (rr_rhs rr)) (map e_minor (ps_stack pp)) = Some (vs, ws)).
    { unfold popv in *. rewrite map_length, (same_length _ _ Hs). rewrite map_length, Eq in Epop1. destruct (_ <=? _); [eauto|discriminate]. }
    destruct Lk as (vs & ws & Epop). rewrite Epop. rewrite Ep in Epop |- *. pose proof (popv_skip _ _ _ _ Epop) as Hws.
    pose proof (same_skip (List.length (rr_rhs rr)) _ _ Hs) as Hsk. rewrite Ep in Hsk. rewrite Eq in Er. 
    destruct (skipn (List.length (rr_rhs rr)) (top1 :: rest1)) as [|b1 s1] eqn:Es1; [discriminate|].
    destruct (same_top _ _ _ Hsk) as (b & s & Es & Eb & Hs1). rewrite Es in *. rewrite Eb.
    destruct (find_reduce_action t (e_state b1) (rr_lhs rr)) as [d| |] eqn:Ed; try discriminate.
    assert (HX : forall e', e1 = EvReduce r :: e' -> exists x v, h_reduce h r (vs ++ []) (ps_extra pp) = Some (x, inl v) /\ exec (e' ++ e2) ts0 (v :: ws) x = EvOk xf vf).
    { intros e' ->. cbn [app exec] in HE. rewrite Err, Ep, Epop in HE. unfold finish in HE. rewrite app_nil_r. destruct (h_reduce h r vs (ps_extra pp)) as [[x [v|e]]|]; try discriminate. eauto. }
    destruct (d <? t_nstate t) eqn:Ed1.
    + unfold yy_shift in Er. cbn [log set_extra set_stack ps_stack ps_extra ps_log] in Er.
      destruct (negb (t_limit t =? 0) && (t_limit t <=? List.length (b1 :: s1))) eqn:Elim; [destruct (h_overflow h1 _ _ _); discriminate|]. injection Er as Er. 
      pose proof (parse_token_2_ext t h1 n q1 a m1) as Hx. rewrite H in Hx. destruct Hx as [l Hl]. subst q1. cbn [ps_log set_extra set_stack log] in Hl.
      assert (E1' : e1 = EvReduce r :: rev l).
      { rewrite HL in Hl. change (l ++ EvReduce r :: ps_log qq) with (l ++ [EvReduce r] ++ ps_log qq) in Hl. rewrite app_assoc in Hl. apply app_inv_tail in Hl. apply (f_equal (@rev _)) in Hl. rewrite rev_involutive, rev_app_distr in Hl. exact Hl. }
      destruct (HX _ E1') as (x & v & Eh & HE'). rewrite Eh. unfold yy_shift. cbn [log set_extra set_stack ps_stack ps_extra ps_log].
      rewrite (same_length (b :: s) (b1 :: s1) Hsk), Elim. cbn [rbind].
      refine (IH _ _ _ a m m1 f ts ts0 (rev l) e2 xf vf _ _ _ H _ HG Hts _); cbn [log set_extra set_stack ps_stack ps_extra ps_log ps_status]; auto.
      * exact (f_equal (cons d) Hsk).
      * now rewrite rev_involutive.
      * cbn [map e_minor]. rewrite Hws in HE'. exact HE'.
    + destruct (d =? t_nstate t + t_nrule t + 1) eqn:Ed2; [|discriminate]. destruct (h_accept h1 v1) as [root1|]; [|discriminate]. injection Er as Er.
      destruct n as [|n']; [discriminate|]. cbn [parse_token_2] in H. subst q1. cbn [log set_status ps_status] in H. injection H as <-. cbn [ps_log log set_status set_extra set_stack] in HL.
      assert (E1' : e1 = EvReduce r :: [EvAccept]).
      { change (EvAccept :: EvReduce r :: ps_log qq) with ([EvAccept; EvReduce r] ++ ps_log qq) in HL. apply app_inv_tail in HL. apply (f_equal (@rev _)) in HL. rewrite rev_involutive in HL. now rewrite <- HL. }
      destruct (HX _ E1') as (x & v & Eh & HE'). rewrite Eh. cbn [app exec] in HE'. destruct (h_accept h v) as [root|] eqn:Ea; [|discriminate]. cbn [rbind]. cbn [parse_token_2 log set_status ps_status].
      eexists. split; [reflexivity|]. right. exists v, ws, root, root1. splits; auto.
Qed.

Theorem exec_all n ts : forall l1 (pp : parser M X R) (qq qf : parser M1 X1 R1) r1 x1 e xf vf,
  ps_status pp = Normal -> ps_status qq = Normal -> same_states (ps_stack pp) (ps_stack qq) -> map fst l1 = map fst ts -> (forall a m, In (a, m) ts -> a <> 0) ->
  rbind (parse_all n t h1 qq l1) (fun _ p1 => end_of_input n t h1 p1) = ROk (r1, x1) qf ->
  ps_log qf = rev e ++ ps_log qq -> Forall going (ps_log qf) ->
  exec e (map snd ts) (map e_minor (ps_stack pp)) (ps_extra pp) = EvOk xf vf ->
  exists pf v vs root, rbind (parse_with n t h pp ts) (fun _ p1 => end_of_input n t h p1) = ROk (root, xf) pf /\ vf = v :: vs /\ h_accept h v = Some root.
Proof.
  induction ts as [|[a [m f]] ts IH]; intros l1 pp qq qf r1 x1 e xf vf Hn Hn1 Hs Hl Hnz H HL HG HE.
  - destruct l1; [|discriminate]. cbn [parse_all parse_with rbind] in *. unfold end_of_input, parse_token in *. rewrite Hn1 in H. rewrite Hn.
    destruct (parse_token_2 n t h1 qq 0 (h_unit h1)) as [[] q1|? ?| |] eqn:E1'; try discriminate. cbn [rbind] in H.
    destruct (ps_status q1) as [| |root1] eqn:Es1; try discriminate. injection H as <- <- <-.
    destruct (exec_token n pp qq q1 0 (h_unit h) (h_unit h1) (fun y => y) [] [] e [] xf vf Hn Hn1 Hs E1' HL HG) as (pp' & Hp & [(Hz & _)|(v & vs & root & root' & Hst & _ & Ha & Hx)]); auto; [intros []; auto|now rewrite app_nil_r|contradiction|].
    rewrite Hp. cbn [rbind]. rewrite Hst. cbn in Hx. injection Hx as <- <-. exists pp', v, vs, root. auto.
  - destruct l1 as [|[a1 m1] l1]; [discriminate|]. cbn [map fst] in Hl. injection Hl as -> Hl. cbn [parse_all parse_with] in *. unfold parse_token in *. rewrite Hn1 in H. rewrite Hn.
    destruct (parse_token_2 n t h1 qq a m1) as [[] q1|? ?| |] eqn:E1'; try discriminate. cbn [rbind] in H.
    pose proof (parse_token_2_ext t h1 n qq a m1) as X1'. rewrite E1' in X1'. destruct X1' as [u1 Hu1].
    assert (X2 : exists u2, ps_log qf = u2 ++ ps_log q1).
    { destruct (parse_all n t h1 q1 l1) as [[] q2|? ?| |] eqn:E2; try discriminate. cbn [rbind] in H. pose proof (parse_all_ext t h1 n l1 q1) as X2. rewrite E2 in X2.
      unfold end_of_input in H. destruct (parse_token n t h1 q2 0 (h_unit h1)) as [[] q3|? ?| |] eqn:E3; try discriminate. cbn [rbind] in H. pose proof (parse_token_ext t h1 n q2 0 (h_unit h1)) as X3. rewrite E3 in X3.
      destruct (ps_status q3); try discriminate. injection H as _ _ <-. exact (RunFacts.ext_trans _ _ _ X2 X3). }
    destruct X2 as [u2 Hu2]. assert (Ee : e = rev u1 ++ rev u2).
    { rewrite Hu2, Hu1, app_assoc in HL. apply app_inv_tail in HL. rewrite <- rev_app_distr, HL. now rewrite rev_involutive. }
    assert (Ha : a <> 0) by (eapply Hnz; now left).
    destruct (exec_token n pp qq q1 a m m1 f (map snd ts) (map snd ((a, (m, f)) :: ts)) (rev u1) (rev u2) xf vf Hn Hn1 Hs E1') as (pp' & Hp & [(_ & Hst & Hst1 & Hs' & Hx)|(v & vs & root & root1 & _ & Hst1 & _ & _)]); auto.
    + now rewrite rev_involutive.
    + rewrite Hu2 in HG. apply Forall_app in HG. apply HG.
    + now rewrite <- Ee.
    + rewrite Hp. cbn [rbind].
      refine (IH l1 (extra_mut pp' f) q1 qf r1 x1 (rev u2) xf vf Hst Hst1 Hs' Hl _ H _ HG Hx); [intros; eapply Hnz; right; eauto|now rewrite rev_involutive].
    + exfalso. destruct l1 as [|[a2 m2] l1]; cbn [parse_all rbind] in H; unfold end_of_input, parse_token in H; rewrite Hst1 in H; discriminate.
Qed.
End Exec.

(** What the events of a tree compute is the value of the tree. *)
Section ExecTree.
Context (g : grammar) (p p3 p4 : pst) (t : tables) (P : Pipe g p p3 p4 t).
Context {M X E R : Type} (h : hooks M X E R) (mt : nat -> nat -> Prop).

Lemma popv_app (vs rest : list M) : popv (List.length vs) (rev vs ++ rest) = Some (vs, rest).
Proof.
  unfold popv. rewrite app_length, rev_length. replace (_ <=? _) with true by (symmetry; apply Nat.leb_le; lia).
  rewrite firstn_app, skipn_app, rev_length, Nat.sub_diag, <- (rev_length vs), firstn_all, skipn_all. cbn. now rewrite app_nil_r, rev_involutive.
Qed.

Theorem exec_tree :
  (forall Y (tr : tree (M * (X -> X))), derives g mt Y tr -> forall e ts vs x, exec t h (events tr ++ e) (map snd (yield tr) ++ ts) vs x =
     match evalw h tr x with EvOk x' v => exec t h e ts (v :: vs) x' | EvErr x' er => EvErr x' er | EvPanic => EvPanic end) /\
  (forall Ys (trs : list (tree (M * (X -> X)))), derives_all g mt Ys trs -> forall e ts vs x, exec t h (flat_map events trs ++ e) (map snd (flat_map yield trs) ++ ts) vs x =
     match evalw_list h trs x with EvOk x' ws => exec t h e ts (rev ws ++ vs) x' | EvErr x' er => EvErr x' er | EvPanic => EvPanic end).
Proof.
  apply derives_both.
  - intros a [m f] Y _ e ts vs x. reflexivity.
  - intros r ru us Hr HD IH e ts vs x. cbn [events yield]. rewrite <- app_assoc, IH, evalw_node. destruct (evalw_list h us x) as [x1 ws|? ?|] eqn:El; auto.
    assert (Lr : r < List.length (g_rules g)) by (apply nth_error_Some; congruence). destruct (rule_entry g p p3 p4 t P r Lr) as (rr & Hrr & _ & Hrhs & _).
    cbn [app exec]. rewrite Hrr. assert (EL : List.length (rr_rhs rr) = List.length ws).
    { rewrite (evalw_list_length h _ _ _ _ El). apply derives_all_forall2 in HD. apply SoundFacts.Forall2_length in HD. rewrite <- HD, map_length. unfold grule in Hrhs. rewrite (nth_error_nth _ _ _ Hr) in Hrhs. rewrite <- Hrhs. now rewrite map_length. }
    rewrite EL, popv_app. destruct (finish h r ws x1); auto.
  - intros e ts vs x. reflexivity.
  - intros Y tr Ys trs _ IH1 _ IH2 e ts vs x. cbn [flat_map evalw_list]. rewrite map_app, <- !app_assoc, IH1. destruct (evalw h tr x) as [x1 v|? ?|]; auto.
    rewrite IH2. destruct (evalw_list h trs x1) as [x2 ws|? ?|]; auto. cbn [rev]. now rewrite <- app_assoc.
Qed.
End ExecTree.

(** ** Sessions on sentences *)
Fixpoint erase {M} (tr : tree M) : tree unit :=
  match tr with TTok a _ => TTok a tt | TNode r ts => TNode r (map erase ts) end.
Definition mute : hooks unit unit unit unit :=
  mkHooks (fun _ _ _ => Some (tt, inl tt)) (fun _ => Some tt) (fun _ _ _ _ => (tt, inl tt)) (fun _ => (tt, tt)) (fun _ _ _ => (tt, tt)) tt.

Lemma erase_derives {M} (g : grammar) mt : (forall Y (tr : tree M), derives g mt Y tr -> derives g mt Y (erase tr)) /\
  (forall Ys (ts : list (tree M)), derives_all g mt Ys ts -> derives_all g mt Ys (map erase ts)).
Proof. apply derives_both; intros; cbn [erase map]; econstructor; eauto. Qed.
Lemma erase_events {M} : forall tr : tree M, events (erase tr) = events tr.
Proof.
  fix F 1. intros [a m|r ts]; cbn [erase events]; auto. f_equal. induction ts as [|u ts IH]; cbn; auto. now rewrite F, IH.
Qed.
Lemma erase_yield {M} : forall tr : tree M, yield (erase tr) = map (fun q => (fst q, tt)) (yield tr).
Proof.
  fix F 1. intros [a m|r ts]; cbn [erase yield]; auto. induction ts as [|u ts IH]; cbn; auto. now rewrite F, IH, map_app.
Qed.
Lemma eval_mute : forall (tr : tree unit) x, eval mute tr x = EvOk tt tt.
Proof.
  fix F 1. intros [a []|r ts] []; [reflexivity|]. rewrite eval_node.
  assert (H : exists vs, eval_list mute ts tt = EvOk tt vs).
  { induction ts as [|u ts [vs IH]]; cbn [eval_list]; [eauto|]. rewrite F, IH. eauto. }
  destruct H as [vs ->]. reflexivity.
Qed.

Section With.
Context (t : tables) {M X E R : Type} (h : hooks M X E R).
Lemma parse_with_mono n n' ts : n <= n' -> forall pp : parser M X R, parse_with n t h pp ts <> RFuel -> parse_with n' t h pp ts = parse_with n t h pp ts.
Proof.
  intros Hle. induction ts as [|[a [m f]] ts IH]; intros pp H; cbn [parse_with] in *; auto. rewrite (parse_token_mono t h n n'); auto.
  - destruct (parse_token n t h pp a m) as [[] p1|e p1| |]; cbn [rbind] in *; auto.
  - intros Hf. now rewrite Hf in H.
Qed.
Lemma run_with_mono n n' x ts : n <= n' -> run_with n t h x ts <> RFuel -> run_with n' t h x ts = run_with n t h x ts.
Proof.
  unfold run_with. intros Hle H. rewrite (parse_with_mono n n'); auto.
  - destruct (parse_with n t h (new_parser h x) ts) as [[] p1|e p1| |]; cbn [rbind] in *; auto. now apply end_of_input_mono.
  - intros Hf. now rewrite Hf in H.
Qed.
Lemma parse_with_alike n ts : forall p, alike t h (parse_with n t h p ts) (parse_with n (unlimited t) h p ts).
Proof.
  induction ts as [|[a [m f]] ts IH]; intros p; cbn [parse_with]; [now left|].
  apply alike_bind; [apply parse_token_alike|]. intros; apply IH.
Qed.
Theorem run_with_alike n x ts : alike t h (run_with n t h x ts) (run_with n (unlimited t) h x ts).
Proof.
  unfold run_with. apply alike_bind; [apply parse_with_alike|]. intros _ p. unfold end_of_input.
  apply alike_bind; [apply parse_token_alike|]. intros; now left.
Qed.
End With.

Section Complete.
Context (g : grammar) (p p3 p4 : pst) (t : tables) (P : Pipe g p p3 p4 t).
Context {M X E R : Type} (h : hooks M X E R).
Notation ns := (List.length (p_states p)).
Notation nr := (List.length (g_rules g)).
Notation num := (state_num g p4).
Hypothesis HD : forall s la d, s < ns -> la < g_nterm g -> raw g p s la d -> live d ->
  find_shift_action t (num s) la = LAct (code ns nr num d).

Theorem run_with_complete (tr : tree (M * (X -> X))) x x' v root : derives g (direct g) (g_start g) tr -> t_limit t = 0 -> tokens_ok g (yield tr) ->
  evalw h tr x = EvOk x' v -> h_accept h v = Some root ->
  exists n pp, run_with n t h x (yield tr) = ROk (root, x') pp.
Proof.
  intros Hd Hl Hok He Ha. pose proof (run_complete g p p3 p4 t P mute HD (erase tr) tt (proj1 (erase_derives g (direct g)) _ _ Hd)) as HC.
  rewrite eval_mute in HC. cbn [h_accept mute] in HC. destruct HC as (n & qf & HR & HL); [destruct tr; cbn; auto; now left|]. rewrite erase_events in HL. rewrite erase_yield in HR.
  exists n. unfold run in HR. unfold run_with.
  destruct (exec_all t h mute n (yield tr) (map (fun q => (fst q, tt)) (yield tr)) (new_parser h x) (new_parser mute tt) qf tt tt (events tr ++ [EvAccept]) x' [v; h_unit h] eq_refl eq_refl eq_refl) as (pf & v' & vs & root' & Hr & Ev & Ha'); auto.
  - now rewrite map_map.
  - intros a m Hin. apply Hok in Hin. lia.
  - cbn [ps_log new_parser]. now rewrite HL, rev_app_distr, app_nil_r.
  - rewrite HL. constructor; [exact I|]. apply Forall_rev. eapply Forall_impl; [|apply events_calm]. intros []; cbn; auto.
  - rewrite <- (app_nil_r (map snd (yield tr))). rewrite (proj1 (exec_tree g p p3 p4 t P h (direct g)) _ _ Hd). cbn [ps_extra ps_stack new_parser map e_minor]. rewrite He. cbn [exec]. now rewrite Ha.
  - injection Ev as <- <-. exists pf. rewrite Hr. congruence.
Qed.
End Complete.

(** ** In terms of the declarations *)
Section Time.
Context (ds : list decl) (g : grammar) (opts : list (nat * nat)) (DE : declared ds g opts).
Context (p p3 p4 : pst) (t : tables) (P : Pipe g p p3 p4 t).
Let W := pp_wf _ _ _ _ _ P.
Context {V X E : Type} (sm : sem V X E).
Notation h := (user_hooks t sm).
Context (mt : nat -> nat -> Prop) (tk : ident -> ident -> Prop) (LK : linked g mt tk).
Let LD := lk_down _ _ _ LK.
Let LU := lk_up _ _ _ LK.
Notation toks := (map (fun q : nat * ((nat * V) * (X -> X)) => (gname g (fst q), (snd (fst (snd q)), snd (snd q))))).
Notation tok_ok := (toks_ok g).

Theorem tree_timed :
  (forall Y (tr : tree ((nat * V) * (X -> X))), derives g mt Y tr -> tok_ok (yield tr) -> forall x x' m, evalw h tr x = EvOk x' m ->
     (forall a, at_name g Y a -> upper a \/ lower a -> timed ds sm tk a (toks (yield tr)) x x' (snd m)) /\
     (forall e, elem_sym g opts e Y -> timed_elem ds sm tk e (toks (yield tr)) x x' (snd m))) /\
  (forall Ys (trs : list (tree ((nat * V) * (X -> X)))), derives_all g mt Ys trs -> tok_ok (flat_map yield trs) -> forall x x' ms, evalw_list h trs x = EvOk x' ms ->
     List.length ms = List.length Ys /\
     (forall es, Forall2 (elem_sym g opts) es Ys -> timed_all ds sm tk es (toks (flat_map yield trs)) x x' (map snd ms)) /\
     forall Y a, Ys = [Y] -> at_name g Y a -> upper a \/ lower a -> exists m, ms = [m] /\ timed ds sm tk a (toks (flat_map yield trs)) x x' (snd m)).
Proof.
  apply derives_both.
  - intros a [m f] Y HM HO x x' m' Hev. cbn in Hev. injection Hev as <- <-. destruct (HO a _ (or_introl eq_refl)) as [H1 H2]. destruct (LD a Y (conj H1 H2) HM) as (B & HB & Ht). cbn [yield map fst snd].
    assert (HS : forall k, at_name g Y k -> upper k \/ lower k -> timed ds sm tk k [(gname g a, (snd m, f))] x (f x) (snd m)).
    { intros k HY [U|L]; [|exfalso; eapply (member_not_nonterm g B Y HB); eapply lower_kind; eauto].
      apply ti_tok with (b := gname g B); auto. eapply stands_down; eauto. }
    split; auto. intros [[ns o] al] He. destruct ns as [|k [|k2 ns]]; [destruct He| |].
    + destruct He as [Hk He]. destruct o; [|constructor; auto]. exfalso. destruct He as (Z & HZ & _). destruct (de_opts _ _ _ DE _ _ HZ) as (_ & j & Hj). now apply (member_not_nonterm g B Y HB), (opt_nonterm ds g opts DE j).
    + destruct He as (HU & HY & ms & HK & HF). apply ti_alt with (b := gname g B); [simpl; lia|auto|].
      destruct HB as [[-> Hb]|(ms' & Hk & Hin)]; [unfold is_term in Hb; congruence|]. rewrite HK in Hk. injection Hk as <-. destruct (forall2_in_l _ _ _ HF _ Hin) as (y & Hy & Hb). now rewrite (at_gname _ _ _ Hb).
  - intros r ru ts Hr HD IH HO x x' m Hev. rewrite evalw_node in Hev. destruct (evalw_list h ts x) as [x1 vs|? ?|] eqn:El; try discriminate. unfold finish in Hev.
    destruct (h_reduce h r vs x1) as [[x2 [v|e]]|] eqn:Eh; try discriminate. injection Hev as -> ->. destruct (IH HO x x1 vs El) as (HL & IH1 & IH2). cbn [yield] in *.
    pose proof (reduce_code g p p3 p4 t P sm r ru vs x1 x' m Hr Eh) as HC.
    destruct (opt_rule ds g opts DE r ru Hr) as [(d & Hd & RM)|(Y & Z & HY & HR)].
    + pose proof (rm_lhs _ _ _ _ RM) as HLn. pose proof (rm_low _ _ _ _ RM) as Low.
      assert (HS : forall k, at_name g (r_lhs ru) k -> upper k \/ lower k -> timed ds sm tk k (toks (flat_map yield ts)) x x' (snd m)).
      { intros k Hk _. rewrite <- (at_gname _ _ _ Hk), (at_gname _ _ _ HLn). econstructor 2; [exact Hd|apply IH1, RM|]. rewrite <- (made_code ds g opts DE sm d ru); auto. }
      split; auto. intros [[ns o] al] He. destruct ns as [|k [|k2 ns]]; [destruct He| |].
      * destruct o.
        { exfalso. destruct He as (_ & Y & HY & _). destruct (de_opts _ _ _ DE _ _ HY) as (_ & j & Hj). apply (opt_not_id j (d_lhs d)); auto. rewrite <- (at_gname _ _ _ Hj). symmetry. now apply at_gname. }
        destruct He as [Hk He]. constructor. now apply HS.
      * exfalso. destruct He as (_ & Ha & _). apply at_gname in Ha, HLn. rewrite Ha in HLn. rewrite <- HLn in Low. discriminate.
    + destruct (de_opts _ _ _ DE _ _ HY) as ((y & Ay & Hy) & j & Hj). assert (EZ : r_lhs ru = Z) by (destruct HR as [<-|[<-|[]]]; reflexivity). rewrite EZ in *. split.
      * intros k Hk Hid. exfalso. apply (opt_not_id j k Hid). rewrite <- (at_gname _ _ _ Hj). symmetry. now apply at_gname.
      * intros [[ns o] al] He. destruct ns as [|k [|k2 ns]]; [destruct He| |].
        { destruct He as [Hk He]. destruct o; [|exfalso; apply (opt_not_id j k Hk); rewrite <- (at_gname _ _ _ Hj); symmetry; now apply at_gname].
          destruct He as (Y' & HY' & Hk'). assert (Y' = Y) by (eapply opt_uniq; eauto). subst Y'. destruct HR as [<-|[<-|[]]]; cbn [r_rhs r_code r_lhs map fst snd] in *.
          - inversion HD; subst. cbn in *. injection El as <- <-. injection HC as <- <-. constructor.
          - destruct (IH2 Y k eq_refl Hk' Hk) as (m1 & -> & Hm). cbn in HC. injection HC as <- <-. constructor. exact Hm. }
        { exfalso. destruct He as (_ & Ha & _). apply at_gname in Ha, Hj. rewrite Ha in Hj. discriminate. }
  - intros _ x x' ms Hev. cbn in Hev. injection Hev as <- <-. splits; auto; [|discriminate]. intros es HF. inversion HF; subst. constructor.
  - intros Y tr Ys ts Ht IHt Hts IHts HO x x' ms Hev. cbn in HO. apply toks_app in HO as [HO1 HO2]. cbn [evalw_list] in Hev.
    destruct (evalw h tr x) as [x1 v|? ?|] eqn:E1; try discriminate. destruct (evalw_list h ts x1) as [x2 vs|? ?|] eqn:E2; try discriminate. injection Hev as <- <-.
    destruct (IHt HO1 x x1 v E1) as [IH1 IH2], (IHts HO2 x1 x2 vs E2) as (HL & IH3 & IH4). splits; [cbn; now rewrite HL| |].
    + intros es HF. inversion HF as [|e Y' es' Ys' He HF']; subst. cbn [flat_map map]. rewrite map_app. econstructor; eauto.
    + intros Z a Ez Ha Hid. injection Ez as -> ->. inversion Hts; subst. cbn in E2. injection E2 as <- <-. exists v. split; auto. cbn. rewrite app_nil_r. auto.
Qed.


Hypothesis TS : type_sane g.
Hypothesis A1 : auto_one g.
Notation yes := (fun (_ : ty) (_ : V) => true).
Notation st := (stacked g t yes).
Notation tv := (tokval g t yes).
Hypothesis MTK : forall a Y, mt a Y -> tok_match g a Y.

Theorem timed_tree :
  (forall a w x x' v, timed ds sm tk a w x x' v -> forall Y ts, at_name g Y a -> toks ts = w -> tok_ok ts -> (forall b m f, In (b, (m, f)) ts -> tv b m) ->
     exists tr m, derives g mt Y tr /\ yield tr = ts /\ evalw h tr x = EvOk x' m /\ snd m = v /\ st Y m) /\
  (forall e w x x' v, timed_elem ds sm tk e w x x' v -> forall Y ts, elem_sym g opts e Y -> toks ts = w -> tok_ok ts -> (forall b m f, In (b, (m, f)) ts -> tv b m) ->
     exists tr m, derives g mt Y tr /\ yield tr = ts /\ evalw h tr x = EvOk x' m /\ snd m = v /\ st Y m) /\
  (forall es w x x' vs, timed_all ds sm tk es w x x' vs -> forall Ys ts, Forall2 (elem_sym g opts) es Ys -> toks ts = w -> tok_ok ts -> (forall b m f, In (b, (m, f)) ts -> tv b m) ->
     exists trs ms, derives_all g mt Ys trs /\ flat_map yield trs = ts /\ evalw_list h trs x = EvOk x' ms /\ map snd ms = vs /\ Forall2 st Ys ms).
Proof.
  assert (H1 : forall a v f ts, toks ts = [(a, (v, f))] -> tok_ok ts -> exists x m, ts = [(x, (m, f))] /\ gname g x = a /\ snd m = v /\ 0 < x < g_nterm g).
  { intros a v f ts Hw HO. destruct ts as [|[x [m f']] [|? ?]]; try discriminate. injection Hw as H0 H1 H2. subst f'. exists x, m. pose proof (HO x _ (or_introl eq_refl)). splits; auto; lia. }
  assert (HR : forall d, In d (rules_in ds) -> exists r ru, nth_error (g_rules g) r = Some ru /\ rule_made g opts d ru).
  { intros d Hd. destruct (de_rules _ _ _ DE) as (rs & HRs & HF). destruct (forall2_in_l _ _ _ HF _ Hd) as (ru & Hru & RM). apply In_nth_error in Hru as [r Hr]. exists r, ru. split; auto. rewrite HRs. now apply nth_error_ext. }
  assert (Hin : forall Y Z ru, In (Y, Z) opts -> In ru (opt_made g (Y, Z)) -> exists r, nth_error (g_rules g) r = Some ru).
  { intros Y Z ru HY Hru. destruct (de_rules _ _ _ DE) as (rs & HRs & _). apply In_nth_error. rewrite HRs. apply in_app_iff. right. apply in_flat_map. eauto. }
  apply timed_both.
  - intros a v f b k x Ht Hs Y ts HY Hw Hok HT. destruct (H1 a v f ts Hw Hok) as (c & m & -> & <- & Hv & Hc). destruct (LU c b Hc Ht) as (B & HB & HM). assert (HM' : mt c Y) by (apply HM; eapply stands_up; eauto).
    exists (TTok c (m, f)), m. splits; auto; [now constructor|]. eapply val_tok; eauto. apply (HT c m f). now left.
  - intros d w vs v x x1 x2 Hd _ IH HC Y ts HY Hw Hok HT. destruct (HR d Hd) as (r & ru & Hr & RM). destruct (IH (map fst (r_rhs ru)) ts) as (us & ms & Hus & Hy & Hev & Hvs & HS); auto; [apply RM|].
    rewrite <- (made_code ds g opts DE sm d ru vs x1 RM), <- Hvs in HC. destruct (reduce_back g p p3 p4 t P sm A1 r ru ms x1 x2 v Hr HS HC) as (m & Hh & Hm & HSm).
    assert (EY : Y = r_lhs ru) by (apply (de_uniq _ _ _ DE Y (r_lhs ru) (d_lhs d)); auto; [apply RM|apply lower_nonempty, (rm_low _ _ _ _ RM)]). subst Y.
    exists (TNode r us), m. splits; auto; [econstructor; eauto|]. rewrite evalw_node, Hev. unfold finish. now rewrite Hh.
  - intros k al w x x' v _ IH Y ts [Hk HY] Hw Hok HT. eauto.
  - intros k al x Y ts (Hk & Z & HZ & HZk) Hw Hok HT. destruct ts as [|]; [|discriminate]. destruct (Hin Z Y (mkRule Y [] COptNone None None) HZ) as [r Hr]; [left; reflexivity|].
    destruct (reduce_back g p p3 p4 t P sm A1 r _ [] x x (v_none sm) Hr) as (m & Hh & Hm & HSm); [constructor|reflexivity|].
    exists (TNode r []), m. splits; auto; [apply (d_node g mt r _ [] Hr); constructor|]. rewrite evalw_node. cbn [evalw_list]. unfold finish. now rewrite Hh.
  - intros k al w x x' v _ IH Y ts (Hk & Z & HZ & HZk) Hw Hok HT. destruct (IH Z ts HZk Hw Hok HT) as (tr & m & Hd & Hy & Hev & Hv & HS).
    destruct (Hin Z Y (mkRule Y [(Z, true)] COptSome None (rhs_sym_prec g Z)) HZ) as [r Hr]; [right; left; reflexivity|].
    destruct (reduce_back g p p3 p4 t P sm A1 r _ [m] x' x' (v_some sm v) Hr) as (m' & Hh & Hm & HSm); [cbn; constructor; auto|cbn; now rewrite Hv|].
    exists (TNode r [tr]), m'. splits; auto.
    + apply (d_node g mt r _ [tr] Hr). cbn. constructor; [auto|constructor].
    + cbn. now rewrite app_nil_r.
    + rewrite evalw_node. cbn [evalw_list]. rewrite Hev. unfold finish. now rewrite Hh.
  - intros ns o al a v f b x Hl Ht Hb Y ts He Hw Hok HT. destruct (H1 a v f ts Hw Hok) as (c & m & -> & <- & Hv & Hc). destruct (LU c b Hc Ht) as (B & HB & HM).
    assert (HM' : mt c Y).
    { apply HM. destruct ns as [|n1 [|n2 ns]]; try (simpl in Hl; lia). destruct He as (HU & _ & ms & HK & HF). right. exists ms. split; auto.
      destruct (forall2_in_r _ _ _ HF _ Hb) as (c' & Hc' & Ac). rewrite (de_uniq _ _ _ DE B c' b); auto. rewrite Forall_forall in HU. now apply upper_nonempty, HU. }
    exists (TTok c (m, f)), m. splits; auto; [now constructor|]. eapply val_tok; eauto. apply (HT c m f). now left.
  - intros x Ys ts HF Hw _ _. inversion HF; subst. destruct ts; [|discriminate]. exists [], []. splits; auto; constructor.
  - intros e es w1 w2 x x1 x2 v vs _ IH1 _ IH2 Ys ts HF Hw Hok HT. inversion HF as [|e' Y es' Ys' He HF']; subst. apply map_eq_app in Hw as (ts1 & ts2 & -> & E1 & E2). apply toks_app in Hok as [O1 O2].
    destruct (IH1 Y ts1 He E1 O1) as (tr & m & Ht & Hy & Hev & Hv & HS); [intros b0 m0 f0 Hb0; apply (HT b0 m0 f0), in_app_iff; auto|].
    destruct (IH2 Ys' ts2 HF' E2 O2) as (us & ms & Hus & Hys & Hevs & Hvs & HSs); [intros b0 m0 f0 Hb0; apply (HT b0 m0 f0), in_app_iff; auto|].
    exists (tr :: us), (m :: ms). splits; [constructor; auto|cbn; now rewrite Hy, Hys|cbn [evalw_list]; now rewrite Hev, Hevs|cbn; now rewrite Hv, Hvs|constructor; auto].
Qed.
End Time.
