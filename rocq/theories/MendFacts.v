(** What an accepted input with wrong tokens means: first for the grammar and the user's
    hooks, then for the declarations (C44). *)
From Verif Require Import Base Syntax BaseFacts FrontEnd First States Actions Tables Runtime User Spec WfGrammar FirstFacts ClosureFacts AutoFacts LalrFacts ActFacts CompFacts LookFacts PipeFacts RunFacts FrontFacts
  SoundFacts DeclSpec DeclFacts GramFacts LangFacts TypeFacts MeanSpec MeanFacts DeclMore Main Claims3 Claims4 MendSpec.
Open Scope string_scope. Open Scope nat_scope. Open Scope list_scope.

Section Mend.
Context (g : grammar) (p p3 p4 : pst) (t : tables) (P : Pipe g p p3 p4 t).
Let W := pp_wf _ _ _ _ _ P.
Let A := pp_aut _ _ _ _ _ P.
Context {M X E R : Type} (h : hooks M X E R).
Notation ns := (List.length (p_states p)).
Notation nr := (List.length (g_rules g)).
Notation num := (state_num g p4).
Notation word := (list ((nat * M) * fate)).

Definition in_rule (Y : nat) : Prop := Y <> t_err t /\ exists r ru, nth_error (g_rules g) r = Some ru /\ In Y (map fst (r_rhs ru)).
Definition gpass (q : (nat * M) * fate) (x x' : X) : Prop :=
  match snd q with
  | Shifted => False
  | Reported => exists ex v, h_syntax h (fst (fst q)) (snd (fst q)) ex x = (x', inl v)
  | Silent => x' = x
  end.

Inductive gm : nat -> word -> X -> X -> M -> Prop :=
| gm_tok a m Y x : tok_match g a Y -> gm Y [((a, m), Shifted)] x x m
| gm_rule r ru w ms m x x1 x2 : nth_error (g_rules g) r = Some ru -> gm_all (map fst (r_rhs ru)) w x x1 ms -> h_reduce h r ms x1 = Some (x2, inl m) -> gm (r_lhs ru) w x x2 m
| gm_err Ys w ms a m ex v x x1 x2 : t_err t <> 0 -> Forall in_rule Ys -> gm_all Ys w x x1 ms -> h_syntax h a m ex x1 = (x2, inl v) -> gm (t_err t) (w ++ [((a, m), Reported)]) x x2 v
| gm_more Ys w1 w2 ms a m v x x1 x2 : t_err t <> 0 -> Forall in_rule Ys -> gm (t_err t) w1 x x1 v -> gm_all Ys w2 x1 x2 ms -> gm (t_err t) (w1 ++ w2 ++ [((a, m), Silent)]) x x2 v
with gm_all : list nat -> word -> X -> X -> list M -> Prop :=
| gm_nil x : gm_all [] [] x x []
| gm_cons Y Ys w1 w2 x x1 x2 m ms : gm Y w1 x x1 m -> gm_all Ys w2 x1 x2 ms -> gm_all (Y :: Ys) (w1 ++ w2) x x2 (m :: ms)
| gm_pass Ys q w ms x x1 x2 : t_err t = 0 -> gpass q x x1 -> gm_all Ys w x1 x2 ms -> gm_all Ys (q :: w) x x2 ms.

Lemma gma_app Ys w x x1 ms : gm_all Ys w x x1 ms -> forall Zs w' x2 ns', gm_all Zs w' x1 x2 ns' -> gm_all (Ys ++ Zs) (w ++ w') x x2 (ms ++ ns').
Proof.
  induction 1 as [x|Y Ys w1 w2 x x1 x2 m ms H _ IH|Ys q w ms x x1 x2 He Hp _ IH]; intros Zs w' x3 ns' HZ; cbn [app]; auto.
  - rewrite <- app_assoc. econstructor; eauto.
  - eapply gm_pass; eauto.
Qed.
Lemma gma_split Ys Zs w x x2 ms : gm_all (Ys ++ Zs) w x x2 ms ->
  exists w1 w2 x1 ms1 ms2, w = w1 ++ w2 /\ ms = ms1 ++ ms2 /\ gm_all Ys w1 x x1 ms1 /\ gm_all Zs w2 x1 x2 ms2 /\ List.length ms2 = List.length Zs.
Proof.
  assert (HL : forall Zs w x x2 ms, gm_all Zs w x x2 ms -> List.length ms = List.length Zs) by (induction 1; cbn; auto).
  intros H. remember (Ys ++ Zs) as l eqn:El. revert Ys El. induction H as [x|Y Ys0 w1 w2 x x1 x2 m ms H1 H2 IH|Ys0 q w ms x x1 x2 He Hp H2 IH]; intros Ys El.
  - symmetry in El. apply app_eq_nil in El as [-> ->]. exists [], [], x, [], []. splits; auto; constructor.
  - destruct Ys as [|Y' Ys]; cbn in El.
    + subst Zs. exists [], (w1 ++ w2), x, [], (m :: ms). splits; auto; [constructor|econstructor; eauto|cbn; f_equal; eauto].
    + injection El as <- ->. destruct (IH Ys eq_refl) as (u1 & u2 & y & ms1 & ms2 & -> & -> & G1 & G2 & L). exists (w1 ++ u1), u2, y, (m :: ms1), ms2. splits; auto; [now rewrite app_assoc|econstructor; eauto].
  - destruct (IH Ys El) as (u1 & u2 & y & ms1 & ms2 & -> & -> & G1 & G2 & L). exists (q :: u1), u2, y, ms1, ms2. splits; auto. eapply gm_pass; eauto.
Qed.
Lemma gma_one Y w x x1 m : t_err t <> 0 -> gm_all [Y] w x x1 [m] -> gm Y w x x1 m.
Proof.
  intros Hne H. inversion H as [|Y' Ys w1 w2 ? y ? m' ms H1 H2|? ? ? ? ? ? ? He]; subst; [|contradiction]. inversion H2 as [|?|? ? ? ? ? ? ? He]; subst; [now rewrite app_nil_r|contradiction].
Qed.
Lemma app_tail {T} (a b c d : list T) : a ++ b = c ++ d -> List.length b = List.length d -> a = c /\ b = d.
Proof.
  revert c. induction a as [|u a IH]; intros [|v c] H HL; cbn in *; auto.
  - exfalso. subst b. cbn in HL. rewrite app_length in HL. lia.
  - exfalso. apply (f_equal (@List.length T)) in H. cbn in H. rewrite app_length in H. lia.
  - injection H as -> H. destruct (IH _ H HL) as [-> ->]. auto.
Qed.

(** What stands on the stack, bottom first, for the tokens handed over so far *)
Record stacked_as (x0 : X) (w : word) (st : list (entry M)) (Xs : list nat) (s : nat) (x : X) : Prop := {
  sa_spine : spine g p p4 st Xs s;
  sa_major : Forall2 (fun e Y => e_major e = Y \/ (e_major e < g_nterm g /\ (t_err t <> 0 -> Y <> t_err t))) st Xs;
  sa_mean : gm_all (rev Xs) w x0 x (map e_minor (rev st)) }.
Definition goodm (x0 : X) (w : word) (pp : parser M X R) : Prop :=
  exists st Xs s bot, stacked_as x0 w st Xs s (ps_extra pp) /\ ps_stack pp = st ++ [bot] /\ e_state bot = num 0 /\ e_major bot = 0 /\ told (ps_log pp) = (false, map snd w).
Definition donem (x0 : X) (w : word) (pp : parser M X R) : Prop :=
  exists r ru ms m root x1, ps_status pp = Accepted root /\ nth_error (g_rules g) r = Some ru /\ r_lhs ru = g_start g /\
    gm_all (map fst (r_rhs ru)) w x0 x1 ms /\ h_reduce h r ms x1 = Some (ps_extra pp, inl m) /\ h_accept h m = Some root /\ told (ps_log pp) = (false, map snd w).

Lemma new_goodm x : goodm x [] (new_parser h x).
Proof.
  exists [], [], 0, (mkEntry 0 0 (h_unit h)). splits; auto; [|symmetry; apply (num_0 _ _ _ _ _ P)]. constructor; constructor.
Qed.

(** Taking the top off *)
Lemma pop_mean x0 w e st Y Xs x : gm_all (rev (Y :: Xs)) w x0 x (map e_minor (rev (e :: st))) -> exists w1 w2 x1, w = w1 ++ w2 /\ gm_all (rev Xs) w1 x0 x1 (map e_minor (rev st)) /\ gm_all [Y] w2 x1 x [e_minor e].
Proof.
  cbn [rev]. intros H. apply gma_split in H as (w1 & w2 & x1 & ms1 & ms2 & -> & Hm & G1 & G2 & L). rewrite map_app in Hm. destruct (app_tail _ _ _ _ Hm (eq_sym L)) as [<- <-]. exists w1, w2, x1. auto.
Qed.
Lemma edge_rule s Y q : edge g p s Y q -> Y <> t_err t -> in_rule Y.
Proof.
  intros He Hy. split; auto. destruct (au_edge g p A _ _ _ He) as (_ & [r d] & Hi & HK). unfold kpost in HK. cbn in HK. destruct (nth_error (r_rhs (grule g r)) d) as [[Z al]|] eqn:EX; [|discriminate]. injection HK as ->.
  pose proof (au_valid g p A _ _ Hi) as [Lr _]. cbn in Lr. exists r, (grule g r). split; [now apply nth_grule|]. apply in_map_iff. exists (Y, al). split; auto. eapply nth_error_In; eauto.
Qed.

Lemma reduce_goodm x0 w (pp pp' : parser M X R) st Xs s bot r :
  stacked_as x0 w st Xs s (ps_extra pp) -> ps_stack pp = st ++ [bot] -> e_state bot = num 0 -> e_major bot = 0 -> told (ps_log pp) = (false, map snd w) ->
  item p s (r, rlen g r) -> yy_reduce t h pp r = ROk tt pp' ->
  (r_lhs (grule g r) = g_start g /\ donem x0 w pp') \/ (ps_status pp' = ps_status pp /\ goodm x0 w pp').
Proof.
  intros [Hsp Hmj Hmn] Est Hb Hb0 Hl Hi Hred. pose proof (item_rule _ _ _ _ _ P _ _ _ Hi) as Hr.
  destruct (yy_reduce_eq _ _ _ _ _ P h pp r st Xs s bot Hsp Est Hb Hi) as (st1 & st2 & Xs1 & Xs2 & s0 & -> & -> & L & HX & Hs & HC).
  rewrite !rev_app_distr, map_app in Hmn. destruct (gma_split _ _ _ _ _ _ Hmn) as (w2 & w1 & x1 & ms2 & ms1 & -> & Hms & G2 & G1 & L1).
  destruct (app_tail _ _ _ _ Hms) as [<- <-]; [now rewrite L1, map_length, !rev_length|]. rewrite HX in G1. rewrite map_rev in G1.
  destruct HC as [(Hst & -> & -> & Hy)|(Hst & q & Hq & Hy)]; rewrite Hred in Hy.
  - left. split; auto. destruct (h_reduce h r (rev (map e_minor st1)) (ps_extra pp)) as [[x [v|e]]|] eqn:Eh; try discriminate. destruct (h_accept h v) as [root|] eqn:Ea; [|discriminate]. injection Hy as ->.
    exists r, (grule g r), (rev (map e_minor st1)), v, root, (ps_extra pp). splits; auto; [now apply nth_grule|exact (gma_app _ _ _ _ _ G2 _ _ _ _ G1)|]. cbn. now rewrite Hl.
  - right. destruct (h_reduce h r (rev (map e_minor st1)) (ps_extra pp)) as [[x [v|e]]|] eqn:Eh; try discriminate.
    symmetry in Hy. apply yy_shift_ok in Hy. subst pp'. split; auto.
    exists (mkEntry (num q) (r_lhs (grule g r)) v :: st2), (r_lhs (grule g r) :: Xs2), q, bot. splits; auto; [|cbn; now rewrite Hl]. constructor.
    + econstructor; eauto.
    + constructor; [now left|]. destruct (forall2_split _ _ _ _ Hmj) as (M1 & M2 & HM & F1 & F2). assert (HL2 : List.length M2 = List.length Xs2) by (rewrite <- (SoundFacts.Forall2_length _ _ _ F2); eapply spine_length; eauto).
      destruct (app_tail _ _ _ _ HM (eq_sym HL2)) as [_ ->]. exact F2.
    + cbn [rev map]. rewrite map_app. cbn [map e_minor ps_extra after_reduce log set_extra set_stack]. refine (gma_app _ _ _ _ _ G2 _ _ _ _ _). rewrite <- (app_nil_r w1). econstructor; [|constructor]. eapply gm_rule; eauto. now apply nth_grule.
Qed.

(** Recovery: the pieces [Ps] have been taken off. *)
Lemma recover_goodm : t_err t <> 0 -> forall n st0 a m x0 (pp pp' : parser M X R) st Xs s bot w1 x1 Ps w2 ms,
  stacked_as x0 w1 st Xs s x1 -> gm_all Ps w2 x1 (ps_extra pp) ms -> Forall in_rule Ps ->
  ps_stack pp = st ++ [bot] -> e_state bot = num 0 -> e_major bot = 0 -> told (ps_log pp) = (false, map snd (w1 ++ w2)) ->
  recover t h n st0 a m pp = ROk tt pp' ->
  ps_status pp' = ps_status pp /\ (ps_stack pp' = [] \/ exists st' Xs' s' f, stacked_as x0 ((w1 ++ w2) ++ [((a, m), f)]) st' Xs' s' (ps_extra pp') /\ ps_stack pp' = st' ++ [bot] /\
    told (EvDrop a :: ps_log pp') = (false, map snd ((w1 ++ w2) ++ [((a, m), f)]))).
Proof.
  intros Hne. pose proof (t_er _ _ _ _ _ P) as HE. assert (EE : t_err t = g_error g) by (destruct (1 <? _); [auto|contradiction]).
  destruct (wg_error g W) as [KE DE]. pose proof (nt_range _ _ _ _ _ P _ KE DE) as RE. rewrite <- EE in RE.
  induction n as [|n IH]; intros st0 a m x0 pp pp' st Xs s bot w1 x1 Ps w2 ms SA GP FP Est Hb Hb0 Hl H; [discriminate|]. cbn [recover] in H. pose proof SA as [Hsp Hmj Hmn].
  destruct (spine_top g p p4 st Xs s bot Hsp Hb) as (top & rest & Et & Etop). rewrite Est, Et in H.
  destruct (Nat.eqb_spec (e_major top) (t_err t)) as [Hm|Hm].
  - injection H as <-. split; auto. right. inversion Hsp as [|st' Xs' s' e Y q Hsp' Hq He]; subst.
    { cbn in Et. injection Et as <- <-. congruence. }
    cbn in Et. injection Et as <- <-. inversion Hmj as [|? ? ? ? [Hy|[Hy _]] Hmj']; subst; [|lia]. rewrite Hm in *.
    destruct (pop_mean _ _ _ _ _ _ _ Hmn) as (u1 & u2 & y1 & -> & G1 & G2). apply gma_one in G2; auto.
    exists (e :: st'), (t_err t :: Xs'), s, Silent. splits; auto.
    + constructor; [exact Hsp|constructor; auto|]. cbn [rev]. rewrite map_app. cbn [map]. rewrite <- !app_assoc. refine (gma_app _ _ _ _ _ G1 _ _ _ _ _). rewrite <- (app_nil_r (u2 ++ _)). econstructor; [|constructor]. eapply gm_more; eauto.
    + cbn [told]. rewrite Hl. rewrite !map_app. reflexivity.
  - pose proof (spine_range g p p3 p4 t P _ _ _ Hsp) as Hs. rewrite Etop in H.
    destruct (error_lookup g p p3 p4 t P s Hs Hne) as (ac & Ha & Hac). rewrite Ha, (t_ns g p p3 p4 t P) in H.
    destruct (Nat.ltb_spec ac ns) as [Hlt|Hge].
    + destruct (Hac Hlt) as (q & -> & Hq). destruct (h_syntax h a m (expected_tokens t st0) (ps_extra pp)) as [x [v|e]] eqn:Eh; [|discriminate]. cbn zeta in H.
      destruct (yy_shift t h (log (set_extra pp x) (EvSyntaxError a)) (num q) (t_err t) v) as [[] p2|e p2| |] eqn:Ey; try discriminate. cbn [rbind] in H. injection H as <-. apply yy_shift_ok in Ey. subst p2. split; auto. right.
      exists (mkEntry (num q) (t_err t) v :: st), (t_err t :: Xs), q, Reported. splits; auto.
      * constructor; [econstructor; eauto|constructor; auto|]. cbn [rev]. rewrite map_app. cbn [map e_minor ps_extra log set_stack set_extra]. rewrite <- app_assoc. refine (gma_app _ _ _ _ _ Hmn _ _ _ _ _). rewrite <- (app_nil_r (w2 ++ _)). econstructor; [|constructor]. eapply gm_err; eauto.
      * cbn. now rewrite Est.
      * cbn [told ps_log log set_stack set_extra]. rewrite Hl, !map_app. reflexivity.
    + inversion Hsp as [|st' Xs' s' e Y q Hsp' Hq He]; subst.
      * cbn in Et. injection Et as <- <-. destruct n as [|n]; [discriminate|]. cbn in H. injection H as <-. auto.
      * cbn in Et. injection Et as <- <-. inversion Hmj as [|? ? ? ? Hy Hmj']; subst. destruct (pop_mean _ _ _ _ _ _ _ Hmn) as (u1 & u2 & y1 & -> & G1 & G2).
        rewrite <- app_assoc in *. refine (IH st0 a m x0 _ pp' st' Xs' s' bot u1 y1 (Y :: Ps) (u2 ++ w2) (e_minor e :: ms) _ _ _ _ Hb Hb0 _ H); auto.
        -- constructor; auto.
        -- exact (gma_app _ _ _ _ _ G2 _ _ _ _ GP).
        -- constructor; auto. eapply edge_rule; eauto. destruct Hy as [<-|[_ Hy]]; auto.
        -- cbn [told ps_log log set_stack]. now rewrite Hl.
Qed.

Lemma error_goodm x0 w (pp pp' : parser M X R) st0 a m : ps_status pp = Normal -> goodm x0 w pp -> syntax_error t h pp st0 a m = ROk tt pp' ->
  a <> 0 /\ ps_status pp' = Normal /\ exists f, goodm x0 (w ++ [((a, m), f)]) pp'.
Proof.
  intros Hn (st & Xs & s & bot & SA & Est & Hb & Hb0 & Hl) H. unfold syntax_error in H. destruct (Nat.eqb_spec a 0) as [->|Ha].
  { unfold yy_parse_failed in H. destruct (h_fail h (ps_extra pp)). discriminate. }
  split; auto. destruct (Nat.eqb_spec (t_err t) 0) as [He|He]; cbn [negb] in H.
  - assert (HP : forall f x', gpass ((a, m), f) (ps_extra pp) x' -> stacked_as x0 (w ++ [((a, m), f)]) st Xs s x').
    { intros f x' HG. destruct SA as [S1 S2 S3]. constructor; auto. rewrite <- (app_nil_r (rev Xs)), <- (app_nil_r (map _ _)). refine (gma_app _ _ _ _ _ S3 _ _ _ _ _). eapply gm_pass; eauto. constructor. }
    destruct (ps_count pp =? 0).
    + destruct (h_syntax _ _ _ _ _) as [x [v|e]] eqn:Eh; [|discriminate]. injection H as <-. split; auto. exists Reported, st, Xs, s, bot. splits; auto; [apply HP; cbn; eauto|]. cbn. rewrite Hl, map_app. reflexivity.
    + injection H as <-. split; auto. exists Silent, st, Xs, s, bot. splits; auto; [apply HP; reflexivity|]. cbn. rewrite Hl, map_app. reflexivity.
  - destruct (recover t h (S (List.length (ps_stack pp))) st0 a m pp) as [[] p1|e p1| |] eqn:ER; cbn [rbind] in H; try discriminate.
    destruct (recover_goodm He _ _ _ _ x0 pp p1 st Xs s bot w (ps_extra pp) [] [] [] SA (gm_nil _) (Forall_nil _) Est Hb Hb0 (eq_ind_r (fun l => told _ = (false, map snd l)) Hl (app_nil_r w)) ER) as (Hs1 & HC). rewrite app_nil_r in HC.
    destruct (ps_stack p1) eqn:E1; [unfold yy_parse_failed in H; destruct (h_fail h (ps_extra p1)); discriminate|]. injection H as <-. split; [cbn; congruence|]. destruct HC as [HC|(st' & Xs' & s' & f & SA' & Es' & Hl')]; [discriminate|].
    exists f, st', Xs', s', bot. splits; auto. exact (eq_trans E1 Es').
Qed.

Lemma match_not_err a : t_err t <> 0 -> ~ tok_match g a (t_err t).
Proof.
  intros Hne. pose proof (t_er _ _ _ _ _ P) as HE. assert (EE : t_err t = g_error g) by (destruct (1 <? _); [auto|contradiction]). rewrite EE.
  destruct (wg_error g W) as [K _]. intros [(c & _ & Hc)|(w & _ & Hc)]; now apply member_not_nonterm in Hc.
Qed.
Lemma token_goodm fuel : forall x0 w (pp pp' : parser M X R) a m, ps_status pp = Normal -> goodm x0 w pp -> a < g_nterm g -> parse_token_2 fuel t h pp a m = ROk tt pp' ->
  (a = 0 /\ donem x0 w pp') \/ (a <> 0 /\ ps_status pp' = Normal /\ exists f, goodm x0 (w ++ [((a, m), f)]) pp').
Proof.
  induction fuel as [|fuel IH]; intros x0 w pp pp' a m Hn Hg Ht H; [discriminate|].
  cbn [parse_token_2] in H. rewrite Hn in H. pose proof Hg as (st & Xs & s & bot & SA & Est & Hb & Hb0 & Hl). pose proof SA as [Hsp Hmj Hmn].
  destruct (spine_top _ _ _ _ _ _ bot Hsp Hb) as (top & rest & Et & Etop). rewrite Est, Et in H. rewrite Etop in H.
  destruct (shift_answer g p p3 p4 t P s a (spine_range _ _ _ _ _ P _ _ _ Hsp) (or_introl Ht)) as (ac & Ha & HA). rewrite Ha in H.
  rewrite (t_ns g p p3 p4 t P), (t_nr g p p3 p4 t P) in H.
  inversion HA as [Y q Hq Hm Hz Ea|r b Hlk Hz Ea|Ea]; subst ac.
  - pose proof (num_lt g p p3 p4 t P q (proj1 (au_edge g p A _ _ _ Hq))) as Hlt. apply Nat.ltb_lt in Hlt. rewrite Hlt in H.
    destruct (Nat.eqb_spec a 0) as [|Ha0]; [contradiction|].
    destruct (yy_shift t h pp (num q) a m) as [[] p1|e p1| |] eqn:Es; try discriminate. cbn [rbind] in H. injection H as <-.
    apply yy_shift_ok in Es. subst p1. right. splits; auto. exists Shifted.
    exists (mkEntry (num q) a m :: st), (Y :: Xs), q, bot. splits; auto; [|cbn; now rewrite Est|cbn; rewrite Hl, map_app; reflexivity]. constructor.
    + econstructor; eauto.
    + constructor; auto. right. split; auto. intros Hne ->. now apply match_not_err in Hm.
    + cbn [rev]. rewrite map_app. cbn [map e_minor ps_extra log set_stack set_count]. refine (gma_app _ _ _ _ _ Hmn _ _ _ _ _). change [((a, m), Shifted)] with ([((a, m), Shifted)] ++ []). econstructor; [|constructor]. now constructor.
  - replace (ns + r <? ns) with false in H by (symmetry; apply Nat.ltb_ge; lia).
    pose proof (item_rule _ _ _ _ _ P _ _ _ (look_item _ _ _ _ Hlk)) as Hr. replace (ns + r <? ns + nr) with true in H by (symmetry; apply Nat.ltb_lt; lia).
    replace (ns + r - ns) with r in H by lia.
    destruct (yy_reduce t h pp r) as [[] p1|e p1| |] eqn:Er; try discriminate. cbn [rbind] in H.
    destruct (reduce_goodm _ _ _ _ _ _ _ _ _ SA Est Hb Hb0 Hl (look_item _ _ _ _ Hlk) Er) as [(Hst & HF)|(Hs1 & HG)].
    + destruct fuel; [discriminate|]. cbn [parse_token_2] in H. pose proof HF as (r' & ru & ms & v & root & x1 & Hs1 & _). rewrite Hs1 in H. injection H as <-.
      left. auto.
    + apply (IH x0 w p1 pp' a m); auto. now rewrite Hs1.
  - replace (ns + nr <? ns) with false in H by (symmetry; apply Nat.ltb_ge; lia). rewrite Nat.ltb_irrefl, Nat.eqb_refl in H.
    right. eapply error_goodm; eauto.
Qed.
Lemma all_goodm fuel ts : forall x0 w (pp pp' : parser M X R), tokens_ok g ts -> ps_status pp = Normal -> goodm x0 w pp -> parse_all fuel t h pp ts = ROk tt pp' ->
  ps_status pp' = Normal /\ exists fs, List.length fs = List.length ts /\ goodm x0 (w ++ combine ts fs) pp'.
Proof.
  induction ts as [|[a m] ts IH]; intros x0 w pp pp' Hts Hn Hg H; cbn [parse_all] in H.
  - injection H as <-. split; auto. exists []. split; auto. cbn. now rewrite app_nil_r.
  - destruct (parse_token fuel t h pp a m) as [[] p1|e p1| |] eqn:E1; try discriminate. cbn [rbind] in H. pose proof (Hts a m (or_introl eq_refl)) as Ha. unfold parse_token in E1. rewrite Hn in E1.
    destruct (parse_token_2 fuel t h pp a m) as [[] p2|e p2| |] eqn:E2; try discriminate. injection E1 as ->.
    destruct (token_goodm _ _ _ _ _ _ _ Hn Hg (proj2 Ha) E2) as [[-> _]|(_ & Hn1 & f & Hg1)]; [lia|].
    destruct (IH x0 _ p1 pp' (fun a' m' Hin => Hts a' m' (or_intror Hin)) Hn1 Hg1 H) as (Hn' & fs & L & G). split; auto. exists (f :: fs). cbn. split; [now rewrite L|]. now rewrite <- app_assoc in G.
Qed.
Theorem run_mended fuel x ts r x' pp : tokens_ok g ts -> Runtime.run fuel t h x ts = ROk (r, x') pp ->
  exists fs q ru ms m x1, List.length fs = List.length ts /\ nth_error (g_rules g) q = Some ru /\ r_lhs ru = g_start g /\
    gm_all (map fst (r_rhs ru)) (combine ts fs) x x1 ms /\ h_reduce h q ms x1 = Some (x', inl m) /\ h_accept h m = Some r /\ fates (ps_log pp) = fs.
Proof.
  intros Hts H. unfold Runtime.run in H. destruct (parse_all fuel t h (new_parser h x) ts) as [[] p1|e p1| |] eqn:E1; try discriminate. cbn [rbind] in H. unfold end_of_input, parse_token in H.
  destruct (all_goodm fuel ts x [] (new_parser h x) p1 Hts eq_refl (new_goodm x) E1) as (Hn & fs & L & G). cbn [app] in G. rewrite Hn in H.
  destruct (parse_token_2 fuel t h p1 0 (h_unit h)) as [[] p2|e p2| |] eqn:E2; try discriminate. cbn [rbind] in H.
  destruct (token_goodm _ _ _ _ _ _ _ Hn G (wg_nterm_pos g W) E2) as [[_ HF]|(Hz & _)]; [|congruence].
  destruct HF as (q & ru & ms & m & root & x1 & Hs & Hr & Hst & HG & Hh & Ha & Hl). rewrite Hs in H. injection H as <- <- <-. exists fs, q, ru, ms, m, x1. splits; auto.
  unfold fates. rewrite Hl. cbn [snd]. clear - L. revert fs L. induction ts as [|u ts IH]; intros [|f fs] L; try discriminate; cbn; auto. f_equal. apply IH. now injection L.
Qed.
End Mend.

Scheme gm_mind := Minimality for gm Sort Prop with gm_all_mind := Minimality for gm_all Sort Prop.
Combined Scheme gm_both from gm_mind, gm_all_mind.

(** ** In terms of the declarations *)
Lemma mentions_dec ds n : {mentions ds n} + {~ mentions ds n}.
Proof.
  destruct (in_dec string_dec n (flat_map mention ds)) as [H|H]; [left|right].
  - apply in_flat_map in H. exact H.
  - intros H'. apply H, in_flat_map. exact H'.
Qed.
Section Declared.
Context (ds : list decl) (g : grammar) (opts : list (nat * nat)) (DE : declared ds g opts).
Context (p p3 p4 : pst) (t : tables) (P : Pipe g p p3 p4 t).
Let W := pp_wf _ _ _ _ _ P.
Context {V X E : Type} (sm : sem V X E).
Notation h := (user_hooks t sm).
Context (nm : token V -> ident).
Hypothesis NM : forall k, token_wf t k -> nm k = gname g (fst k).
Hypothesis ERR : t_err t = 0 <-> ~ mentions ds "error".
Notation tk := (taken ds).
Let LD := lk_down _ _ _ (linked_taken ds g opts DE W).
Notation md := (mended ds sm tk nm). Notation mdE := (mended_elem ds sm tk nm). Notation mdA := (mended_all ds sm tk nm).
Definition valued (q : token V * fate) : (nat * (nat * V)) * fate := (token_value t sm (fst q), snd q).
Notation wf := (Forall (fun q : token V * fate => token_wf t (fst q))).

Lemma rule_piece Y : t_err t <> 0 -> in_rule g t Y -> exists e, piece ds e /\ elem_sym g opts e Y.
Proof.
  intros Hne (Hy & r & ru & Hr & Hin).
  assert (HN : forall e, elem_sym g opts e Y -> forall al, e <> (["error"], false, al)).
  { intros e He al ->. apply Hy. destruct He as [_ He]. cbn in He. pose proof (t_er _ _ _ _ _ P) as HE. replace (t_err t) with (g_error g) by (destruct (1 <? _); [auto|contradiction]). eapply (de_uniq _ _ _ DE); eauto; [apply (de_error _ _ _ DE)|discriminate]. }
  enough (exists e, (exists d, In d (rules_in ds) /\ (In e (d_rhs d) \/ exists n al, e = ([n], false, al) /\ In ([n], true, al) (d_rhs d))) /\ elem_sym g opts e Y) as (e & H1 & H2) by (exists e; split; [split; eauto|auto]). destruct (opt_rule ds g opts DE r ru Hr) as [(d & Hd & RM)|(Y' & Z & HY & HR)].
  - destruct (forall2_in_r _ _ _ (rm_rhs _ _ _ _ RM) _ Hin) as (e & He & Hs). exists e. split; auto. exists d. auto.
  - destruct HR as [<-|[<-|[]]]; cbn in Hin; [destruct Hin|]. destruct Hin as [<-|[]]. destruct (de_opt4 _ _ _ DE _ _ HY) as (d & n & al & Hd & He & Hn). destruct (de_opts _ _ _ DE _ _ HY) as ((y & Ay & Hid) & _).
    exists ([n], false, al). split; [exists d; split; auto; right; eauto|]. cbn. split; auto. rewrite <- (at_gname _ _ _ Hn), (at_gname _ _ _ Ay). exact Hid.
Qed.
Lemma rule_pieces Ys : t_err t <> 0 -> Forall (in_rule g t) Ys -> exists es, Forall (piece ds) es /\ Forall2 (elem_sym g opts) es Ys.
Proof.
  intros Hne. induction 1 as [|Y Ys HY _ (es & F1 & F2)]; [exists []; auto|]. destruct (rule_piece Y Hne HY) as (e & H1 & H2). exists (e :: es). auto.
Qed.
Lemma syntax_report k ex x x' m : token_wf t k -> h_syntax h (fst (token_value t sm k)) (snd (token_value t sm k)) ex x = (x', inl m) -> report sm k x x' (snd m).
Proof.
  intros Hk H. cbn [h_syntax user_hooks] in H. rewrite (build_value t sm k Hk) in H. destruct (u_syntax sm (Some k) _ x) as [y [v|e]] eqn:Eu; [|discriminate]. injection H as <- <-. eexists. exact Eu.
Qed.

Lemma mda_length es w x x' vs : mdA es w x x' vs -> List.length vs = List.length es.
Proof. induction 1; cbn; auto. Qed.

Theorem gm_mended :
  (forall Y w x x' m, gm g t h Y w x x' m -> forall ks, map valued ks = w -> wf ks ->
     (forall a, at_name g Y a -> upper a \/ lower a -> md a ks x x' (snd m)) /\
     (forall e, elem_sym g opts e Y -> mdE e ks x x' (snd m))) /\
  (forall Ys w x x' ms, gm_all g t h Ys w x x' ms -> forall ks, map valued ks = w -> wf ks ->
     forall es, Forall2 (elem_sym g opts) es Ys -> mdA es ks x x' (map snd ms)).
Proof.
  assert (HER : t_err t <> 0 -> t_err t = g_error g /\ mentions ds "error").
  { intros Hne. pose proof (t_er _ _ _ _ _ P) as HE. split; [destruct (1 <? _); [auto|contradiction]|]. destruct (mentions_dec ds "error") as [H|H]; auto. now apply ERR in H. }
  assert (HS : forall a ks x x' v, t_err t <> 0 -> md "error" ks x x' v -> at_name g (t_err t) a -> md a ks x x' v).
  { intros a ks x x' v Hne H Ha. destruct (HER Hne) as [EE _]. rewrite EE in Ha. rewrite <- (at_gname _ _ _ Ha), (at_gname _ _ _ (de_error _ _ _ DE)). exact H. }
  assert (HSE : forall e ks x x' v, t_err t <> 0 -> md "error" ks x x' v -> elem_sym g opts e (t_err t) -> mdE e ks x x' v).
  { intros [[ns o] al] ks x x' v Hne H He. destruct (HER Hne) as [EE _]. pose proof (de_error _ _ _ DE) as AE. rewrite <- EE in AE. destruct ns as [|k [|k2 ns]]; [destruct He| |].
    - destruct He as [Hk He]. destruct o.
      + exfalso. destruct He as (Y & HY & _). destruct (de_opts _ _ _ DE _ _ HY) as (_ & j & Hj). apply (opt_not_id j "error"); [right; reflexivity|]. rewrite <- (at_gname _ _ _ Hj). symmetry. now apply at_gname.
      + constructor. now apply HS.
    - exfalso. destruct He as (_ & Ha & _). apply at_gname in Ha, AE. rewrite Ha in AE. discriminate. }
  assert (HL : forall (ks : list (token V * fate)) w q, map valued ks = w ++ [q] -> wf ks -> exists ks1 k, ks = ks1 ++ [(k, snd q)] /\ map valued ks1 = w /\ wf ks1 /\ token_wf t k /\ fst q = token_value t sm k).
  { intros ks w q H HF. apply map_eq_app in H as (k1 & k2 & -> & <- & H). destruct k2 as [|[k f] [|]]; try discriminate. injection H as <-. apply Forall_app in HF as [F1 F2]. inversion F2; subst. exists k1, k. splits; auto. }
  apply gm_both.
  - intros a m Y x HM ks Hw HF. destruct ks as [|[k f] [|? ?]]; try discriminate. injection Hw as Ea Em Ef. subst f. inversion HF as [|? ? Hk _]; subst. cbn [fst] in Hk. pose proof (NM k Hk) as En. destruct Hk as [Hk1 _]. rewrite (t_nt _ _ _ _ _ P) in Hk1.
    destruct (LD (fst k) Y Hk1 HM) as (B & HB & Ht). rewrite <- En in Ht. cbn [snd].
    assert (HT : forall n, at_name g Y n -> upper n \/ lower n -> md n [(k, Shifted)] x x (payload sm k)).
    { intros n HY [U|L]; [|exfalso; eapply (member_not_nonterm g B Y HB); eapply lower_kind; eauto]. apply mn_tok with (b := gname g B); auto. eapply stands_down; eauto. }
    split; auto. intros [[ns o] al] He. destruct ns as [|n [|n2 ns]]; [destruct He| |].
    + destruct He as [Hk He]. destruct o; [|constructor; auto]. exfalso. destruct He as (Z & HZ & _). destruct (de_opts _ _ _ DE _ _ HZ) as (_ & j & Hj). now apply (member_not_nonterm g B Y HB), (opt_nonterm ds g opts DE j).
    + destruct He as (HU & HY & ms & HK & HF'). apply mn_alt with (b := gname g B); [cbn; lia|auto|].
      destruct HB as [[-> Hb]|(ms' & Hk & Hin)]; [unfold is_term in Hb; congruence|]. rewrite HK in Hk. injection Hk as <-. destruct (forall2_in_l _ _ _ HF' _ Hin) as (y & Hy & Hb). now rewrite (at_gname _ _ _ Hb).
  - intros r ru w ms m x x1 x' Hr _ IH Eh ks Hw HF. specialize (IH ks Hw HF). pose proof (reduce_code g p p3 p4 t P sm r ru ms x1 x' m Hr Eh) as HC.
    destruct (opt_rule ds g opts DE r ru Hr) as [(d & Hd & RM)|(Y & Z & HY & HR)].
    + pose proof (rm_lhs _ _ _ _ RM) as HLn. pose proof (rm_low _ _ _ _ RM) as Low.
      assert (HR : forall k, at_name g (r_lhs ru) k -> md k ks x x' (snd m)).
      { intros k Hk. rewrite <- (at_gname _ _ _ Hk), (at_gname _ _ _ HLn). eapply mn_rule; [exact Hd|apply IH, RM|]. rewrite <- (made_code ds g opts DE sm d ru); auto. }
      split; auto. intros [[ns o] al] He. destruct ns as [|k [|k2 ns]]; [destruct He| |].
      * destruct o.
        { exfalso. destruct He as (_ & Y & HY & _). destruct (de_opts _ _ _ DE _ _ HY) as (_ & j & Hj). apply (opt_not_id j (d_lhs d)); auto. rewrite <- (at_gname _ _ _ Hj). symmetry. now apply at_gname. }
        destruct He as [Hk He]. constructor. now apply HR.
      * exfalso. destruct He as (_ & Ha & _). apply at_gname in Ha, HLn. rewrite Ha in HLn. rewrite <- HLn in Low. discriminate.
    + destruct (de_opts _ _ _ DE _ _ HY) as ((y & Ay & Hy) & j & Hj). assert (EZ : r_lhs ru = Z) by (destruct HR as [<-|[<-|[]]]; reflexivity). rewrite EZ in *. split.
      * intros k Hk Hid. exfalso. apply (opt_not_id j k Hid). rewrite <- (at_gname _ _ _ Hj). symmetry. now apply at_gname.
      * intros [[ns o] al] He. destruct ns as [|k [|k2 ns]]; [destruct He| |].
        { destruct He as [Hk He]. destruct o; [|exfalso; apply (opt_not_id j k Hk); rewrite <- (at_gname _ _ _ Hj); symmetry; now apply at_gname].
          destruct He as (Y' & HY' & Hk'). assert (Y' = Y) by (eapply opt_uniq; eauto). subst Y'. destruct HR as [<-|[<-|[]]]; cbn [r_rhs r_code r_lhs map fst snd] in *.
          - specialize (IH [] (Forall2_nil _)). destruct ms as [|m0 ms]; [cbn in HC; injection HC as <- <-; now constructor|]. apply mda_length in IH. discriminate.
          - assert (IH' : mdA [([k], false, al)] ks x x1 (map snd ms)) by (apply IH; constructor; auto; split; auto). pose proof (mda_length _ _ _ _ _ IH') as HLn. destruct ms as [|m0 [|m1 ms]]; try discriminate. cbn in HC. injection HC as <- <-. apply mn_some. exact IH'. }
        { exfalso. destruct He as (_ & Ha & _). apply at_gname in Ha, Hj. rewrite Ha in Hj. discriminate. }
  - intros Ys w ms a m ex v x x1 x2 Hne HY _ IH Hh ks Hw HF. destruct (HL _ _ _ Hw HF) as (ks1 & k & -> & Hw1 & F1 & Hk & Ek). destruct (rule_pieces Ys Hne HY) as (es & Fp & Fe). cbn [fst snd] in *.
    assert (H0 : md "error" (ks1 ++ [(k, Reported)]) x x2 (snd v)).
    { eapply mn_error; [apply (HER Hne)|exact Fp|exact (IH ks1 Hw1 F1 es Fe)|]. apply (syntax_report k ex); auto. rewrite <- Ek. exact Hh. }
    split; intros; auto.
  - intros Ys w1 w2 ms a m v x x1 x2 Hne HY _ IH1 _ IH2 ks Hw HF. rewrite app_assoc in Hw. destruct (HL _ _ _ Hw HF) as (ks1 & k & -> & Hw1 & F1 & Hk & Ek). destruct (rule_pieces Ys Hne HY) as (es & Fp & Fe). cbn [fst snd] in *.
    apply map_eq_app in Hw1 as (u1 & u2 & -> & H1 & H2). apply Forall_app in F1 as [G1 G2]. destruct (HER Hne) as [EE HM].
    assert (H0 : md "error" ((u1 ++ u2) ++ [(k, Silent)]) x x2 (snd v)).
    { rewrite <- app_assoc. eapply mn_more; [exact HM|exact Fp| |exact (IH2 u2 H2 G2 es Fe)]. apply (IH1 u1 H1 G1); [rewrite EE; apply (de_error _ _ _ DE)|right; reflexivity]. }
    split; intros; auto.
  - intros x ks Hw HF es He. destruct ks; [|discriminate]. inversion He; subst. constructor.
  - intros Y Ys w1 w2 x x1 x2 m ms _ IH1 _ IH2 ks Hw HF es He. apply map_eq_app in Hw as (u1 & u2 & -> & H1 & H2). apply Forall_app in HF as [G1 G2]. inversion He as [|e Y' es' Ys' He1 He2]; subst. cbn [map]. econstructor; [apply (IH1 u1 eq_refl G1); auto|apply (IH2 u2 eq_refl G2); auto].
  - intros Ys q w ms x x1 x2 Hz Hp _ IH ks Hw HF es He. destruct ks as [|[k f] ks]; [discriminate|]. injection Hw as <- Hw. inversion HF as [|? ? Hk HF']; subst. cbn [fst] in Hk. eapply mn_pass; [now apply ERR| |apply IH; auto].
    unfold gpass in Hp. cbn [fst snd valued] in Hp. destruct f; cbn; auto. destruct Hp as (ex & v & Hh). exists (snd v). eapply syntax_report; eauto.
Qed.
End Declared.
