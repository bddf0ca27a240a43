(** No endless reductions below a stack limit (C06).

    Without the assumption that every symbol derives something: with at most one candidate
    action per state and lookahead, the number of reductions that follow one another while the
    stack stays below a given height is bounded. *)
From Verif Require Import Base Syntax BaseFacts FrontEnd First States Spec WfGrammar FirstFacts
  ClosureFacts StatesFacts DfsFacts FollowFacts AutoFacts LalrFacts Actions ActFacts AbsFacts HaltFacts.

Section Limit.
Context (g : grammar) (W : wf_grammar g) (p : pst) (A : Aut g p).
Notation edge := (edge g p). Notation item := (item p). Notation look := (look p).
Notation raw := (raw g p). Notation rlen := (rlen g). Notation ns := (List.length (p_states p)).
Notation cfg := (list (nat * tree unit)).
Notation top := (top unit). Notation aspine := (aspine g p unit). Notation ared := (ared g p unit).
Notation asteps := (asteps g p unit). Notation halts := (halts g p).

(** ** Several reductions on one lookahead *)
Inductive reds (b : nat) : nat -> cfg -> cfg -> Prop :=
| reds_0 c : reds b 0 c c
| reds_S n c c' c'' : ared b c c' -> reds b n c' c'' -> reds b (S n) c c''.

Lemma reds_trans b n c c' : reds b n c c' -> forall m c'', reds b m c' c'' -> reds b (n + m) c c''.
Proof. induction 1; intros m c3 H3; cbn [Nat.add]; auto. econstructor; eauto. Qed.

Lemma asteps_shorter c c' : asteps c c' -> List.length (snd c') <= List.length (snd c).
Proof. induction 1 as [c|c c' c'' St H IH]; auto. inversion St; subst; cbn [snd List.length] in *; lia. Qed.

Lemma asteps_reds c c' : asteps c c' -> snd c = snd c' -> exists n, reds (la_of (snd c)) n (fst c) (fst c').
Proof.
  induction 1 as [c|c c' c'' St H IH]; intros E; [exists 0; constructor|].
  inversion St as [stk a m inp q R|stk stk' inp R]; subst; cbn [fst snd] in *.
  - exfalso. apply asteps_shorter in H. cbn [snd] in H. rewrite <- E in H. cbn [List.length] in H. lia.
  - destruct (IH E) as [n Hn]. exists (S n). econstructor; eauto.
Qed.

Lemma reds_halts b n c c' m : reds b n c c' -> halts b m c' -> halts b (n + m) c.
Proof. induction 1; intros Hh; auto. cbn [Nat.add]. eapply h_red; eauto. Qed.

Lemma halts_reds (U : single g p) b n c c' : reds b n c c' -> forall m, halts b m c -> exists m', m = n + m' /\ halts b m' c'.
Proof.
  induction 1 as [c|n c c' c'' R H IH]; intros m Hm; [now exists m|].
  assert (Hr : top c < ns) by (inversion R; subst; eapply raw_range; eauto).
  inversion R as [st1 st2 r q R1 N1 L1 E1 Ea Eb]; subst.
  inversion Hm as [stk q' R'|stk r' R' L'|n0 stk stk' R' H0]; subst.
  - pose proof (U _ _ _ _ Hr R1 R'). discriminate.
  - pose proof (U _ _ _ _ Hr R1 R') as E. injection E as ->. contradiction.
  - rewrite (ared_fun g p A unit U _ _ _ _ Hr R' R) in H0. destruct (IH _ H0) as (m' & -> & Hm'). exists m'. split; auto.
Qed.

(** Only the states matter. *)
Lemma top_map c c' : map fst c = map fst c' -> top c = top c'.
Proof. destruct c as [|[]], c' as [|[]]; cbn; intros; congruence. Qed.
Lemma halts_states b n c : halts b n c -> forall c', map fst c' = map fst c -> halts b n c'.
Proof.
  induction 1 as [stk q R|stk r R L|n stk stk' R H IH]; intros c' E.
  - eapply h_shift. rewrite (top_map _ _ E). eauto.
  - eapply h_final; eauto. rewrite (top_map _ _ E). eauto.
  - inversion R as [st1 st2 r q R1 N1 L1 E1 Ea Eb]; subst. rewrite map_app in E.
    assert (exists s1 s2, c' = s1 ++ s2 /\ map fst s1 = map fst st1 /\ map fst s2 = map fst st2) as (s1 & s2 & -> & F1 & F2).
    { exists (firstn (List.length st1) c'), (skipn (List.length st1) c'). rewrite firstn_skipn. split; auto.
      rewrite <- firstn_map, <- skipn_map, E. rewrite <- (map_length fst st1).
      rewrite firstn_app, Nat.sub_diag, firstn_all, firstn_O, app_nil_r, skipn_app, skipn_all, Nat.sub_diag. auto. }
    eapply h_red; [|eapply (IH ((q, TNode r (rev (map snd s1))) :: s2)); cbn; now rewrite F2].
    constructor; auto.
    + rewrite (top_map (s1 ++ s2) (st1 ++ st2)); auto. rewrite !map_app. congruence.
    + apply (f_equal (@List.length nat)) in F1. rewrite !map_length in F1. congruence.
    + rewrite (top_map s2 st2); auto.
Qed.

(** ** A lookahead that can really follow makes the machine stop *)
Lemma null_tree :
  (forall X, nullable g X -> exists t : tree unit, derives g (direct g) X t /\ yield t = []) /\
  (forall Xs, nullable_all g Xs -> exists ts : list (tree unit), derives_all g (direct g) Xs ts /\ flat_map yield ts = []).
Proof.
  apply nullable_both.
  - intros r ru Hr _ (ts & H & E). exists (TNode r ts). split; [econstructor; eauto|]. exact E.
  - exists []. split; [constructor|auto].
  - intros X Xs _ (t & H1 & E1) _ (ts & H2 & E2). exists (t :: ts). split; [constructor; auto|]. cbn [flat_map]. now rewrite E1, E2.
Qed.

Definition rest_of (b : nat) : list (nat * unit) := if b =? 0 then [] else [(b, tt)].
Lemma la_rest b : la_of (rest_of b) = b.
Proof. unfold rest_of. destruct (Nat.eqb_spec b 0); auto. Qed.

Lemma pass_null X b stk Xs k : nullable g X -> b < g_nterm g -> aspine stk Xs -> item (top stk) k -> kpost g k = Some X ->
  (forall q, In q (rules_of g X) -> look (top stk) (q, 0) b) -> exists q t n, edge (top stk) X q /\ reds b n stk ((q, t) :: stk).
Proof.
  intros Hn Hb Hs Hi HX Hl. destruct (proj1 null_tree _ Hn) as (t & Ht & Ey).
  destruct (proj1 (machine_follows g W p A unit) _ _ Ht stk Xs k (rest_of b)) as (q & Hq & S); rewrite ?la_rest; auto.
  rewrite Ey in S. apply asteps_reds in S as [n Hr]; auto. cbn [app fst snd] in Hr. rewrite la_rest in Hr. eauto.
Qed.

Lemma pass_nulls Ys (us : list (tree unit)) b r d stk Xs : derives_all g (direct g) Ys us -> flat_map yield us = [] -> b < g_nterm g ->
  Ys = map fst (skipn d (r_rhs (grule g r))) -> d <= rlen r -> aspine stk Xs -> look (top stk) (r, d) b ->
  exists st1 n, reds b n stk (st1 ++ stk) /\ aspine (st1 ++ stk) (rev Ys ++ Xs) /\ List.length st1 = List.length Ys /\
    raw (top (st1 ++ stk)) b (Reduce r).
Proof.
  intros Hd Ey Hb EY Hle Hs Hl.
  destruct (proj2 (machine_follows g W p A unit) _ _ Hd r d stk Xs (rest_of b)) as (st1 & S & Sp & _ & L & Lk); rewrite ?la_rest; auto.
  rewrite Ey in S. apply asteps_reds in S as [n Hr]; auto. cbn [app fst snd] in Hr. rewrite la_rest in *.
  exists st1, n. splits; auto. now constructor.
Qed.

Lemma member_covers b X : member g b X -> covers g X b.
Proof.
  intros [[-> Ht]|(ms & K & I)]; unfold covers.
  - unfold is_term in Ht. now rewrite Ht.
  - now rewrite K.
Qed.

Lemma machine_first b (Hb : b < g_nterm g) :
  (forall X, first g b X -> forall stk Xs k, aspine stk Xs -> item (top stk) k -> kpost g k = Some X -> exists n, halts b n stk) /\
  (forall Ys, first_all g b Ys -> forall r d stk Xs, Ys = map fst (skipn d (r_rhs (grule g r))) -> aspine stk Xs ->
     item (top stk) (r, d) -> exists n, halts b n stk).
Proof.
  apply first_both.
  - intros X Hm stk Xs k Hs Hi HX. destruct (au_next g p A _ _ _ Hi HX) as [q Hq]. exists 0. eapply h_shift.
    econstructor; eauto. now apply member_covers.
  - intros r ru Hr _ IH stk Xs k Hs Hi HX. pose proof (grule_nth g _ _ Hr) as Er. apply (IH r 0 stk Xs); auto.
    + now rewrite Er.
    + apply (au_close g p A _ k); auto. exists (r_lhs ru). splits; auto. apply in_rules_of. now exists ru.
  - intros X Ys _ IH r d stk Xs Ed Hs Hi. destruct (skipn d (r_rhs (grule g r))) as [|[X' al] rhs'] eqn:Es; [discriminate|].
    cbn [map fst] in Ed. injection Ed as <- ->. apply skip_S in Es as [En Es]. apply (IH stk Xs (r, d)); auto.
    unfold kpost; cbn [fst snd]. now rewrite En.
  - intros X Ys Hn Hf IH r d stk Xs Ed Hs Hi. destruct (skipn d (r_rhs (grule g r))) as [|[X' al] rhs'] eqn:Es; [discriminate|].
    cbn [map fst] in Ed. injection Ed as <- ->. apply skip_S in Es as [En Es].
    assert (HX : kpost g (r, d) = Some X) by (unfold kpost; cbn [fst snd]; now rewrite En).
    destruct (pass_null X b stk Xs (r, d)) as (q & t & n & Hq & Hred); auto.
    + intros q Hq. apply (look_of g p A). eapply sp_first; eauto; [exists X; auto|]. unfold krest; cbn [fst snd]. now rewrite Es.
    + destruct (IH r (S d) ((q, t) :: stk) (X :: Xs)) as [m Hm]; auto.
      * now rewrite Es.
      * now constructor.
      * cbn [AbsFacts.top]. change (r, S d) with (kadv (r, d)). eapply (au_goto g p A); eauto.
      * exists (n + m). eapply reds_halts; eauto.
Qed.

Lemma lr0_back gamma r d : lr0 g gamma r d -> exists gb, gamma = gb ++ map fst (firstn d (r_rhs (grule g r))) /\ lr0 g gb r 0.
Proof.
  intros H. induction H as [r ru Hr Hl|gamma r ru d X al H IH Hr Hn|gamma r ru d X al q qu H IH Hr Hn Hq Hl].
  - exists []. split; [reflexivity|]. econstructor; eauto.
  - destruct IH as (gb & E & Hb). exists gb. split; auto. rewrite (grule_nth _ _ _ Hr) in *.
    rewrite (fst_snoc _ _ _ Hn), map_app, app_assoc, <- E. reflexivity.
  - exists gamma. cbn [firstn map]. rewrite app_nil_r. split; auto. econstructor; eauto.
Qed.

(** Once the rule has been reduced, the lookahead stops the machine. *)
Lemma lr1_halts gamma r d b : lr1 g gamma r d b -> b < g_nterm g ->
  exists gb, gamma = gb ++ map fst (firstn d (r_rhs (grule g r))) /\ lr1 g gb r 0 b /\
    (r_lhs (grule g r) = g_start g /\ b = 0 \/
     r_lhs (grule g r) <> g_start g /\
     forall stk q t, aspine stk (rev gb) -> edge (top stk) (r_lhs (grule g r)) q -> exists n, halts b n ((q, t) :: stk)).
Proof.
  intros H Hb. induction H as [r ru Hr Hl|gamma r ru d b X al H IH Hr Hn|gamma r ru d X al q qu b H Hr Hn Hq Hl Hf|
                  gamma r ru d X al q qu b H IH Hr Hn Hq Hl Hnl].
  - exists []. splits; [reflexivity|econstructor; eauto|]. left. now rewrite (grule_nth _ _ _ Hr).
  - destruct (IH Hb) as (gb & E & H1 & Hc). exists gb. splits; auto. rewrite (grule_nth _ _ _ Hr) in *.
    rewrite (fst_snoc _ _ _ Hn), map_app, app_assoc, <- E. reflexivity.
  - exists gamma. cbn [firstn map]. rewrite app_nil_r. splits; auto; [eapply lr1_first; eauto|]. right.
    pose proof (grule_nth _ _ _ Hr) as Er. rewrite (grule_nth _ _ _ Hq), Hl. split.
    { apply (au_nostart g p A r ru X al Hr). eapply nth_error_In; eauto. }
    intros stk q' t Hs He. pose proof (aspine_path g p unit _ _ Hs) as Hp. rewrite rev_involutive in Hp.
    apply (proj2 (machine_first b Hb) _ Hf r (S d) ((q', t) :: stk) (X :: rev gamma)).
    + now rewrite Er.
    + now constructor.
    + cbn [AbsFacts.top]. change (r, S d) with (kadv (r, d)). eapply (au_goto g p A); eauto; [|eapply kpost_nth; eauto].
      eapply lr0_item; eauto.
  - destruct (IH Hb) as (gb & E & H1 & Hc). exists gamma. cbn [firstn map]. rewrite app_nil_r. splits; auto; [eapply lr1_null; eauto|]. right.
    pose proof (grule_nth _ _ _ Hr) as Er. rewrite (grule_nth _ _ _ Hq), Hl. split.
    { apply (au_nostart g p A r ru X al Hr). eapply nth_error_In; eauto. }
    intros stk q' t Hs He. pose proof (aspine_path g p unit _ _ Hs) as Hp. rewrite rev_involutive in Hp.
    destruct (proj2 null_tree _ Hnl) as (us & Hus & Ey).
    assert (Hd : S d <= List.length (r_rhs ru)) by (apply nth_error_Some; congruence).
    destruct (pass_nulls _ us b r (S d) ((q', t) :: stk) (X :: rev gamma) Hus Ey Hb) as (st1 & n & Hred & Sp & L & Hraw).
    + now rewrite Er.
    + unfold ActFacts.rlen. now rewrite Er.
    + now constructor.
    + cbn [AbsFacts.top]. apply (look_of g p A). change (r, S d) with (kadv (r, d)). eapply sp_goto; eauto; [|eapply kpost_nth; eauto].
      eapply lr1_spread; eauto.
    + destruct Hc as [[Hst ->]|[Hst Hc]].
      { exists (n + 0). eapply reds_halts; eauto. eapply h_final; eauto. }
      assert (EX : rev (map fst (skipn (S d) (r_rhs ru))) ++ X :: rev gamma = rev (map fst (r_rhs ru)) ++ rev gb).
      { rewrite E, Er. rewrite <- !rev_app_distr. change (X :: rev (gb ++ map fst (firstn d (r_rhs ru)))) with ([] ++ X :: rev (gb ++ map fst (firstn d (r_rhs ru)))).
        cbn [app]. rewrite <- (rev_unit _ X), <- rev_app_distr, <- !app_assoc. f_equal. f_equal.
        change [X] with (map fst [(X, al)]). rewrite <- !map_app. rewrite app_assoc, <- (fst_snoc _ _ _ Hn), firstn_skipn. reflexivity. }
      rewrite EX in Sp. destruct (aspine_split g p _ _ _ Sp) as (sa & sb & Es & Ls & Sb). rewrite rev_length, map_length in Ls.
      pose proof (aspine_path g p unit _ _ Sb) as Pb. rewrite rev_involutive in Pb.
      destruct (it_goto g W p A _ _ (lr0_item g p A _ _ _ (lr1_lr0 g _ _ _ _ H1) _ Pb)) as [[Hst0 _]|(_ & q2 & Hq2)]; [contradiction|].
      destruct (Hc sb q2 (TNode r (rev (map snd sa))) Sb Hq2) as [m Hm].
      exists (n + S m). eapply reds_halts; [exact Hred|]. eapply h_red; [|exact Hm]. rewrite Es in Hraw |- *. constructor; auto.
      unfold ActFacts.rlen. now rewrite Er.
Qed.

(** ** Climbing without leaving a stack entry *)
(** On top of a stack in state [s] an entry for [Z] can become one for [Z']: a rule of [Z']
    begins with [Z], the rest of it derives the empty string, and the automaton offers the
    reduction on some lookahead. *)
Definition up (s Z Z' : nat) : Prop :=
  exists r (us : list (tree unit)) al alpha gb t b, r < List.length (g_rules g) /\ r_lhs (grule g r) = Z' /\ r_rhs (grule g r) = (Z, al) :: alpha /\
    derives_all g (direct g) (map fst alpha) us /\ flat_map yield us = [] /\
    path g p gb s /\ path g p (gb ++ Z :: map fst alpha) t /\ raw t b (Reduce r).
Inductive ups (s : nat) : nat -> nat -> Prop :=
| ups_1 Z Z' : up s Z Z' -> ups s Z Z'
| ups_S Z Z1 Z' : up s Z Z1 -> ups s Z1 Z' -> ups s Z Z'.
Lemma ups_snoc s Z Z1 Z' : ups s Z Z1 -> up s Z1 Z' -> ups s Z Z'.
Proof. induction 1; intros; eapply ups_S; eauto. now constructor. Qed.

Lemma derives_null :
  (forall X (t : tree unit), derives g (direct g) X t -> yield t = [] -> nullable g X) /\
  (forall Xs (ts : list (tree unit)), derives_all g (direct g) Xs ts -> flat_map yield ts = [] -> nullable_all g Xs).
Proof. split; intros; eapply direct_first; eauto. Qed.

(** All rules of [X] are valid below [gamma] with lookahead [b]. *)
Definition valid_below (gamma : list nat) (b X : nat) : Prop :=
  forall r ru, nth_error (g_rules g) r = Some ru -> r_lhs ru = X -> lr1 g gamma r 0 b.

Lemma climb_one s Z Z' b gamma stk : b < g_nterm g -> up s Z Z' -> valid_below gamma b Z' -> aspine stk (rev gamma) -> Z' <> g_start g ->
  valid_below gamma b Z /\ forall q t, edge (top stk) Z q -> exists n q' t', reds b (S n) ((q, t) :: stk) ((q', t') :: stk) /\ edge (top stk) Z' q'.
Proof.
  intros Hb (r & us & al & alpha & gb & t0 & b0 & Hr & Hl & Erhs & Hus & Ey & _) HV Hs Hst.
  pose proof (nth_grule g r Hr) as Hru. pose proof (HV r _ Hru Hl) as H1. split.
  - intros q qu Hq Hlq. eapply lr1_null; eauto; [rewrite Erhs; reflexivity|]. rewrite Erhs. cbn [skipn]. eapply derives_null; eauto.
  - intros q t Hq. pose proof (aspine_path g p unit _ _ Hs) as Hp. rewrite rev_involutive in Hp.
    pose proof (lr1_spread g p A _ _ _ _ H1 _ Hp) as Sp0.
    assert (HX : kpost g (r, 0) = Some Z) by (unfold kpost; cbn [fst snd]; now rewrite Erhs).
    destruct (pass_nulls _ us b r 1 ((q, t) :: stk) (Z :: rev gamma) Hus Ey Hb) as (st1 & n & Hred & Sp & L & Hraw).
    + now rewrite Erhs.
    + unfold ActFacts.rlen. rewrite Erhs. cbn [List.length]. lia.
    + now constructor.
    + cbn [AbsFacts.top]. apply (look_of g p A). change (r, 1) with (kadv (r, 0)). eapply sp_goto; eauto.
    + destruct (it_goto g W p A _ _ (lr0_item g p A _ _ _ (lr1_lr0 g _ _ _ _ H1) _ Hp)) as [[Hst0 _]|(_ & q2 & Hq2)]; [congruence|].
      exists n, q2, (TNode r (rev (map snd (st1 ++ [(q, t)])))). rewrite <- Hl. split; auto.
      replace (S n) with (n + 1) by lia. eapply reds_trans; [exact Hred|]. econstructor; [|constructor].
      replace (st1 ++ (q, t) :: stk) with ((st1 ++ [(q, t)]) ++ stk) in Hraw |- * by (now rewrite <- app_assoc). constructor; auto.
      * congruence.
      * rewrite app_length, L, map_length. unfold ActFacts.rlen. rewrite Erhs. cbn [List.length]. lia.
Qed.

Lemma up_not_start s Z Z' : up s Z Z' -> Z <> g_start g.
Proof.
  intros (r & us & al & alpha & gb & t0 & b0 & Hr & Hl & Erhs & _).
  apply (au_nostart g p A r (grule g r) Z al); [now apply nth_grule|]. rewrite Erhs. now left.
Qed.
Lemma ups_not_start s Z Z' : ups s Z Z' -> Z <> g_start g.
Proof. destruct 1; eapply up_not_start; eauto. Qed.

Lemma ups_rule s Z Z' : ups s Z Z' -> exists r, r < List.length (g_rules g) /\ r_lhs (grule g r) = Z'.
Proof. induction 1 as [Z Z' (r & us & al & alpha & gb & t & b & Hr & Hl & _)|]; eauto. Qed.

Lemma climb s Z Z' b gamma stk : b < g_nterm g -> ups s Z Z' -> valid_below gamma b Z' -> aspine stk (rev gamma) -> Z' <> g_start g ->
  valid_below gamma b Z /\ forall q t, edge (top stk) Z q -> exists n q' t', reds b (S n) ((q, t) :: stk) ((q', t') :: stk) /\ edge (top stk) Z' q'.
Proof.
  intros Hb H HV Hs Hst. induction H as [Z Z' H|Z Z1 Z' H H' IH]; [eapply climb_one; eauto|].
  destruct (IH HV Hst) as [V1 C1]. destruct (climb_one s Z Z1 b gamma stk) as [V2 C2]; auto; [eapply ups_not_start; eauto|].
  split; auto. intros q t Hq. destruct (C2 q t Hq) as (n1 & q1 & t1 & R1 & E1). destruct (C1 q1 t1 E1) as (n2 & q2 & t2 & R2 & E2).
  exists (n1 + S n2), q2, t2. split; auto. exact (reds_trans _ _ _ _ R1 _ _ R2).
Qed.

Lemma path_stack gamma s : path g p gamma s -> exists stk, aspine stk (rev gamma) /\ top stk = s.
Proof.
  induction 1 as [|gamma s X t H (stk & IH & Et) E]; [exists []; split; [constructor|auto]|].
  exists ((t, TTok 0 tt) :: stk). rewrite rev_app_distr. cbn [rev app]. split; auto. constructor; auto. now rewrite Et.
Qed.

Lemma path_prefix a b t : path g p (a ++ b) t -> exists s, path g p a s.
Proof.
  revert t. induction b as [|x b IH] using rev_ind; intros t H; [rewrite app_nil_r in H; eauto|].
  rewrite app_assoc in H. apply path_inv_snoc in H as (s & H & _). eauto.
Qed.

Theorem no_cycle (U : single g p) s Z : ~ ups s Z Z.
Proof.
  intros HC.
  assert (exists Z1, up s Z Z1 /\ (Z1 = Z \/ ups s Z1 Z)) as (Z1 & H1 & HR).
  { inversion HC as [? ? H|? Z1 ? H H']; subst; eauto. }
  assert (HZ1 : Z1 <> g_start g).
  { destruct HR as [->|HR]; [eapply up_not_start; eauto|eapply ups_not_start; eauto]. }
  pose proof (up_not_start _ _ _ H1) as HZ.
  pose proof H1 as (r & us & al & alpha & gb & t & b & Hr & Hl & Erhs & Hus & Ey & Pgb & Pt & Hraw).
  assert (Hb : b < g_nterm g /\ look t (r, rlen r) b) by (inversion Hraw; auto). destruct Hb as [Hb Hlk].
  apply (au_look g p A) in Hlk. destruct (spread_lr1 g p A _ _ _ Hlk) as (gamma & Pg & L1). cbn [fst snd] in L1.
  destruct (lr1_halts _ _ _ _ L1 Hb) as (g2 & Eg & L0 & _). rewrite Eg in Pg.
  destruct (path_prefix _ _ _ Pg) as (s2 & P2). destruct (path_stack _ _ P2) as (stk & Hs & Et).
  pose proof (nth_grule g r Hr) as Hru.
  assert (HVZ : valid_below g2 b Z).
  { intros q qu Hq Hlq. eapply lr1_null; eauto; [rewrite Erhs; reflexivity|]. rewrite Erhs. cbn [skipn]. eapply derives_null; eauto. }
  destruct (climb s Z Z b g2 stk Hb HC HVZ Hs HZ) as [_ HCl].
  assert (Hi : item (top stk) (r, 0)).
  { rewrite Et. eapply lr0_item; eauto. eapply lr1_lr0; eauto. }
  destruct (au_next g p A (top stk) (r, 0) Z Hi) as [q Hq]; [unfold kpost; cbn [fst snd]; now rewrite Erhs|].
  assert (Hh : exists n, halts b n ((q, TTok 0 tt) :: stk)).
  { assert (exists r' ru', nth_error (g_rules g) r' = Some ru' /\ r_lhs ru' = Z) as (r' & ru' & Hr' & Hl').
    { destruct (ups_rule _ _ _ HC) as (r' & Hr' & Hl'). exists r', (grule g r'). split; auto. now apply nth_grule. }
    destruct (lr1_halts _ _ _ _ (HVZ r' ru' Hr' Hl') Hb) as (g3 & E3 & _ & Hc). cbn [firstn map] in E3. rewrite app_nil_r in E3. subst g3.
    rewrite (grule_nth _ _ _ Hr'), Hl' in Hc. destruct Hc as [[? _]|[_ Hc]]; [contradiction|]. now apply Hc. }
  destruct Hh as [n Hn]. destruct (HCl q (TTok 0 tt) Hq) as (m & q' & t' & R & Hq'). rewrite (au_fun g p A _ _ _ _ Hq' Hq) in R.
  destruct (halts_reds U _ _ _ _ R _ Hn) as (m' & -> & Hm').
  pose proof (halts_states _ _ _ Hm' ((q, TTok 0 tt) :: stk) eq_refl) as Hm2.
  pose proof (halts_fun g p A U _ _ _ Hm2 _ Hn). lia.
Qed.

(** ** Counting *)
(** [i] reductions, each on some lookahead, after each of which the height of the stack is
    above [k] and at most [n]. *)
Inductive run (k n : nat) : nat -> cfg -> cfg -> Prop :=
| run_0 c : run k n 0 c c
| run_S i b c c' c'' : ared b c c' -> k < List.length c' -> List.length c' <= n -> run k n i c' c'' -> run k n (S i) c c''.

Lemma run_split k0 n i c c' : run k0 n i c c' -> forall k,
  run k n i c c' \/
  exists i1 i2 b c1 c2, i = i1 + S i2 /\ run k n i1 c c1 /\ ared b c1 c2 /\ k0 < List.length c2 /\ List.length c2 <= k /\ run k0 n i2 c2 c'.
Proof.
  induction 1 as [c|i b c c' c'' R H1 H2 H IH]; intros k; [left; constructor|].
  destruct (le_lt_dec (List.length c') k) as [L|L].
  - right. exists 0, i, b, c, c'. splits; auto. constructor.
  - destruct (IH k) as [Hr|(i1 & i2 & b' & c1 & c2 & -> & Hr & Hx)]; [left; econstructor; eauto|].
    right. exists (S i1), i2, b', c1, c2. destruct Hx as (? & ? & ? & ?). splits; auto. econstructor; eauto.
Qed.

(** An entry for the symbol [X] that holds a tree of the empty string *)
Definition eps (e : nat * tree unit) (X : nat) : Prop := derives g (direct g) X (snd e) /\ yield (snd e) = [].

Lemma forall2_len {T T'} (Q : T -> T' -> Prop) l l' : Forall2 Q l l' -> List.length l = List.length l'.
Proof. induction 1; cbn; auto. Qed.

Lemma forall2_eps_trees st Xs : Forall2 eps st Xs ->
  derives_all g (direct g) (rev Xs) (rev (map snd st)) /\ flat_map yield (rev (map snd st)) = [].
Proof.
  assert (Happ : forall Xs1 ts1 Xs2 ts2, derives_all g (direct g) Xs1 ts1 -> derives_all g (direct g) Xs2 ts2 -> derives_all (M := unit) g (direct g) (Xs1 ++ Xs2) (ts1 ++ ts2)).
  { induction 1; intros; cbn [app]; auto. constructor; auto. }
  induction 1 as [|e X st Xs [H1 H2] H [I1 I2]]; [split; [constructor|reflexivity]|].
  cbn [map rev]. split.
  - apply Happ; auto. constructor; auto. constructor.
  - rewrite flat_map_app, I2. cbn [app flat_map]. now rewrite H2.
Qed.

(** What a reduction does to a stack, with the rule read off the stack. *)
Lemma ared_spine b c c' Xs : aspine c Xs -> ared b c c' ->
  exists st1 st2 r q Xs1 Xs2, c = st1 ++ st2 /\ c' = (q, TNode r (rev (map snd st1))) :: st2 /\ Xs = Xs1 ++ Xs2 /\
    List.length st1 = List.length Xs1 /\ aspine st2 Xs2 /\ rev Xs1 = map fst (r_rhs (grule g r)) /\ r < List.length (g_rules g) /\
    raw (top c) b (Reduce r) /\ edge (top st2) (r_lhs (grule g r)) q /\ aspine c' (r_lhs (grule g r) :: Xs2).
Proof.
  intros Hsp H. inversion H as [st1 st2 r q Hraw Hl Hn He]; subst.
  assert (Hi : item (top (st1 ++ st2)) (r, rlen r)) by (inversion Hraw; subst; eapply look_of_item; eauto).
  assert (Hs : exists Xs1 Xs2, Xs = Xs1 ++ Xs2 /\ List.length Xs1 = List.length st1 /\ aspine st2 Xs2).
  { clear - Hsp. revert Xs Hsp. induction st1 as [|[s t] st1 IH]; intros Xs H; [exists [], Xs; auto|].
    simpl in H. inversion H as [|stk' Xs' X' q t' Hs Hq]; subst. destruct (IH _ Hs) as (X1 & X2 & -> & L & H2).
    exists (X' :: X1), X2. simpl. splits; auto. }
  destruct Hs as (Xs1 & Xs2 & -> & L1 & S2).
  pose proof (aspine_path g p unit _ _ Hsp) as Hp. pose proof (item_lr0 g p A _ _ _ Hp Hi) as H0. cbn [fst snd] in H0.
  destruct (lr0_back _ _ _ H0) as (gb & Eg & _). unfold ActFacts.rlen in Eg. rewrite firstn_all in Eg. rewrite rev_app_distr in Eg.
  assert (Lg : List.length (rev Xs2) = List.length gb).
  { apply (f_equal (@List.length nat)) in Eg. rewrite !app_length, !rev_length, map_length in Eg. rewrite rev_length. unfold ActFacts.rlen in Hn. lia. }
  apply app_split_len in Eg as [_ E]; auto.
  exists st1, st2, r, q, Xs1, Xs2. splits; auto.
  - apply (au_valid g p A _ _ Hi).
  - now constructor.
Qed.

Lemma ared_eps b delta cb Xs Xb c' : aspine (delta ++ cb) (Xs ++ Xb) -> Forall2 eps delta Xs -> ared b (delta ++ cb) c' ->
  List.length cb < List.length c' ->
  exists delta' Xs', c' = delta' ++ cb /\ aspine c' (Xs' ++ Xb) /\ Forall2 eps delta' Xs'.
Proof.
  intros Hs Hf Hr Hl. destruct (ared_spine _ _ _ _ Hs Hr) as (st1 & st2 & r & q & Xs1 & Xs2 & E1 & -> & EX & L1 & Hs2 & Hrhs & Hr' & _ & He & Hs').
  cbn [List.length] in Hl. assert (Ht : exists d2, delta = st1 ++ d2 /\ st2 = d2 ++ cb).
  { assert (Hle : List.length st1 <= List.length delta). { apply (f_equal (@List.length _)) in E1. rewrite !app_length in E1. lia. }
    exists (skipn (List.length st1) delta). rewrite <- (firstn_skipn (List.length st1) delta) in E1. rewrite <- app_assoc in E1.
    apply app_split_len in E1 as [E1 E2]; [|rewrite firstn_length; lia]. split; auto. now rewrite <- E1 at 1; rewrite firstn_skipn. }
  destruct Ht as (d2 & -> & ->). apply Forall2_app_inv_l in Hf as (Ya & Yb & F1 & F2 & ->).
  pose proof (forall2_len _ _ _ F1) as LY. rewrite <- app_assoc in EX. symmetry in EX. apply app_split_len in EX as [-> ->]; [|congruence].
  exists ((q, TNode r (rev (map snd st1))) :: d2), (r_lhs (grule g r) :: Yb). cbn [app]. splits; auto. constructor; auto.
  destruct (forall2_eps_trees _ _ F1) as [D1 D2]. split; cbn [snd]; auto.
  rewrite Hrhs in D1. econstructor; eauto. now apply nth_grule.
Qed.

Lemma run_eps k n i c c' : run k n i c c' -> forall delta cb Xs Xb, c = delta ++ cb -> List.length cb = k ->
  aspine c (Xs ++ Xb) -> Forall2 eps delta Xs -> exists delta' Xs', c' = delta' ++ cb /\ aspine c' (Xs' ++ Xb) /\ Forall2 eps delta' Xs'.
Proof.
  induction 1 as [c|i b c c' c'' R H1 H2 H IH]; intros delta cb Xs Xb E L Hs Hf; [eauto|]. subst c.
  destruct (ared_eps _ _ _ _ _ _ Hs Hf R) as (d' & X' & -> & Hs' & Hf'); [lia|]. eapply IH; eauto.
Qed.

(** A reduction that takes away all above [cb] and pushes one entry *)
Lemma ared_close b st e cb Xs Z Xb c' : aspine (st ++ e :: cb) (Xs ++ Z :: Xb) -> aspine cb Xb -> Forall2 eps st Xs ->
  ared b (st ++ e :: cb) c' -> List.length c' = S (List.length cb) ->
  exists e' Z', c' = e' :: cb /\ aspine c' (Z' :: Xb) /\ up (top cb) Z Z'.
Proof.
  intros Hs Hb Hf Hr Hl. destruct (ared_spine _ _ _ _ Hs Hr) as (st1 & st2 & r & q & Xs1 & Xs2 & E1 & -> & EX & L1 & Hs2 & Hrhs & Hr' & Hraw & He & Hs').
  cbn [List.length] in Hl. injection Hl as Hl. pose proof (forall2_len _ _ _ Hf) as Lf.
  change (e :: cb) with ([e] ++ cb) in E1. rewrite app_assoc in E1.
  assert (L2 : List.length (st ++ [e]) = List.length st1).
  { apply (f_equal (@List.length _)) in E1. rewrite !app_length in E1. cbn [List.length] in E1. rewrite app_length. cbn [List.length]. lia. }
  apply app_split_len in E1 as [E1 E2]; auto. subst st1 st2.
  change (Z :: Xb) with ([Z] ++ Xb) in EX. rewrite app_assoc in EX. apply app_split_len in EX as [EX ->];
    [|rewrite <- L1, !app_length; cbn [List.length]; lia]. subst Xs1.
  exists (q, TNode r (rev (map snd (st ++ [e])))), (r_lhs (grule g r)). splits; auto.
  destruct (forall2_eps_trees _ _ Hf) as [D1 D2]. rewrite rev_app_distr in Hrhs. cbn [rev app] in Hrhs.
  destruct (r_rhs (grule g r)) as [|[Z0 al] alpha] eqn:Erhs; [discriminate|]. cbn [map fst] in Hrhs. injection Hrhs as <- Ea.
  exists r, (rev (map snd st)), al, alpha, (rev Xs2), (top (st ++ e :: cb)), b. rewrite <- Ea. splits; auto.
  - eapply aspine_path; eauto.
  - pose proof (aspine_path g p unit _ _ Hs) as Hp. rewrite rev_app_distr in Hp. cbn [rev] in Hp. now rewrite <- app_assoc in Hp.
Qed.

Lemma aspine_tail e cb Z Xb : aspine (e :: cb) (Z :: Xb) -> aspine cb Xb /\ Z < List.length (g_syms g).
Proof. intros H. inversion H as [|stk Xs X q t Hs Hq]; subst. split; auto. apply (edge_sym g W p A _ _ _ Hq). Qed.

Notation V := (List.length (g_syms g)).
Lemma nodup_below (l : list nat) m : NoDup l -> Forall (fun x => x < m) l -> List.length l <= m.
Proof.
  intros H F. rewrite <- (seq_length m 0). apply NoDup_incl_length; auto. intros x Hx. rewrite Forall_forall in F. apply in_seq. specialize (F x Hx). lia.
Qed.

Lemma inner (NC : forall s Z, ~ ups s Z Z) B k n : (forall cb Xb i c', List.length cb = S k -> aspine cb Xb -> run (S k) n i cb c' -> i <= B) ->
  forall m v i e cb Z Xb c', V < m + List.length v -> NoDup (Z :: v) -> Forall (fun Y => Y < V) v -> Forall (fun Y => ups (top cb) Y Z) v ->
  List.length cb = k -> aspine (e :: cb) (Z :: Xb) -> run k n i (e :: cb) c' -> i <= m * S B.
Proof.
  intros HB. induction m as [|m IH]; intros v i e cb Z Xb c' Hv ND Fv Fu Hk Hs Hr.
  - exfalso. inversion ND; subst. assert (List.length v <= V) by now apply nodup_below. lia.
  - destruct (aspine_tail _ _ _ _ Hs) as [Hs0 HZ]. destruct (run_split _ _ _ _ _ Hr (S k)) as [Hr1|(i1 & i2 & b & c1 & c2 & -> & Hr1 & R & G1 & G2 & Hr2)].
    + assert (i <= B) by (eapply (HB (e :: cb)); eauto; cbn [List.length]; lia). cbn [Nat.mul]. lia.
    + assert (i1 <= B) by (eapply (HB (e :: cb)); eauto; cbn [List.length]; lia).
      destruct (run_eps _ _ _ _ _ Hr1 [] (e :: cb) [] (Z :: Xb)) as (st & Xs & -> & Hs1 & Hf); auto; [cbn [List.length]; lia|].
      destruct (ared_close _ _ _ _ _ _ _ _ Hs1 Hs0 Hf R) as (e2 & Z2 & -> & Hs2 & Hup); [lia|].
      assert (i2 <= m * S B); [|cbn [Nat.mul]; lia].
      apply (IH (Z :: v) i2 e2 cb Z2 Xb c'); auto.
      * cbn [List.length]. lia.
      * constructor; auto. intros [E|Hin].
        -- subst. apply (NC (top cb) Z2). now constructor.
        -- rewrite Forall_forall in Fu. apply (NC (top cb) Z2). eapply ups_snoc; eauto.
      * constructor; [now constructor|]. rewrite Forall_forall in *. intros Y HY. eapply ups_snoc; eauto.
Qed.

Lemma above (NC : forall s Z, ~ ups s Z Z) : forall j, exists B, forall k n i cb Xb c', n <= k + j -> List.length cb = k -> aspine cb Xb -> run k n i cb c' -> i <= B.
Proof.
  induction j as [|j (B & HB)].
  - exists 0. intros k n i cb Xb c' Hn Hk Hs Hr. inversion Hr; subst; lia.
  - exists (S (S V * S B)). intros k n i cb Xb c' Hn Hk Hs Hr. inversion Hr as [|i' b c c1 c'' R H1 H2 H']; subst; [lia|].
    destruct (ared_eps b [] cb [] Xb c1) as (d' & X' & -> & Hs' & Hf'); auto.
    assert (Ld : List.length d' = 1).
    { rewrite app_length in H1. inversion R as [st1 st2 r q Hraw Hl0 Hn0 He0 Ea Eb]. apply (f_equal (@List.length _)) in Ea, Eb.
      cbn [List.length] in Eb. rewrite !app_length in Ea, Eb. pose proof (app_length st1 st2). lia. }
    destruct d' as [|e [|]]; try discriminate. pose proof (forall2_len _ _ _ Hf') as Lx. destruct X' as [|Z [|]]; try discriminate.
    assert (i' <= S V * S B); [|lia].
    apply (inner NC B (List.length cb) n) with (v := []) (e := e) (cb := cb) (Z := Z) (Xb := Xb) (c' := c'); auto.
    + intros cb0 Xb0 i0 c0 Hc Hsp0 Hrun. apply (HB (S (List.length cb)) n i0 cb0 Xb0 c0); auto; lia.
    + cbn [List.length]. lia.
    + constructor; [intros []|constructor].
Qed.

Theorem limited (NC : forall s Z, ~ ups s Z Z) n : forall H, exists N, forall i c Xs c', List.length c <= H -> aspine c Xs -> run 0 n i c c' -> i <= N.
Proof.
  induction H as [|H (N & HN)].
  - destruct (above NC n) as (B & HB). exists B. intros i c Xs c' L Hs Hr. eapply (HB 0); eauto. lia.
  - destruct (above NC n) as (B & HB). exists (S V * S B + S N). intros i c Xs c' L Hs Hr.
    destruct Hs as [|cb Xb Z q t Hs Hq].
    { assert (i <= N) by (eapply HN; eauto; [cbn; lia|constructor]). lia. }
    cbn [List.length] in L. assert (Hs' : aspine ((q, t) :: cb) (Z :: Xb)) by now constructor.
    assert (HI : forall i c', run (List.length cb) n i ((q, t) :: cb) c' -> i <= S V * S B).
    { intros i0 c0 Hr0. apply (inner NC B (List.length cb) n) with (v := []) (e := (q, t)) (cb := cb) (Z := Z) (Xb := Xb) (c' := c0); auto.
      - intros cb1 Xb1 i1 c1 Hc Hsp1 Hrun. apply (HB (S (List.length cb)) n i1 cb1 Xb1 c1); auto; lia.
      - cbn [List.length]. lia.
      - constructor; [intros []|constructor]. }
    destruct (run_split _ _ _ _ _ Hr (List.length cb)) as [Hr1|(i1 & i2 & b & c1 & c2 & -> & Hr1 & R & G1 & G2 & Hr2)].
    + apply HI in Hr1. lia.
    + apply HI in Hr1 as Hi1.
      assert (Hs1 : exists Xs1, aspine c1 Xs1).
      { clear -Hr1 Hs' A. revert Hs'. generalize (Z :: Xb). induction Hr1 as [c|i b c c' c'' R H1 H2 H IH]; intros Ys Hs; eauto.
        destruct (ared_spine _ _ _ _ Hs R) as (st1 & st2 & r & q0 & Xs1 & Xs2 & E1 & E2 & EX & L1 & Hs2 & Hrhs & Hr' & Hraw & He & Hs'). eauto. }
      destruct Hs1 as (Xs1 & Hs1). destruct (ared_spine _ _ _ _ Hs1 R) as (st1 & st2 & r & q0 & Xa & Xc & E1 & E2 & EX & L1 & Hs2 & Hrhs & Hr' & Hraw & He & Hs2').
      assert (i2 <= N) by (eapply HN; eauto; lia). lia.
Qed.

(** ** Without a limit *)
Lemma run_wider k n n' i c c' : n <= n' -> run k n i c c' -> run k n' i c c'.
Proof. intros L H. induction H; [constructor|]. econstructor; eauto. lia. Qed.

(** Rules that lead from [A] to [B] behind symbols that may be empty; the mark says that there
    is such a symbol *)
Definition glead (f : bool) (A0 B : nat) : Prop :=
  exists r ru front al rear, nth_error (g_rules g) r = Some ru /\ r_lhs ru = A0 /\ r_rhs ru = front ++ (B, al) :: rear /\
    nullable_all g (map fst front) /\ f = match front with [] => false | _ => true end.
Inductive gpath : bool -> nat -> nat -> Prop :=
| gp_1 f A0 B : glead f A0 B -> gpath f A0 B
| gp_S f f' A0 B C : gpath f A0 B -> glead f' B C -> gpath (f || f') A0 C.

Definition longest : nat := list_max (map (fun ru => List.length (r_rhs ru)) (g_rules g)).
Lemma longest_le r ru : nth_error (g_rules g) r = Some ru -> List.length (r_rhs ru) <= longest.
Proof.
  intros H. apply nth_error_In in H. pose proof (proj1 (list_max_le (map (fun ru => List.length (r_rhs ru)) (g_rules g)) longest) (le_n _)) as F.
  rewrite Forall_forall in F. apply F. apply in_map_iff. eauto.
Qed.
Lemma nullable_all_in Xs : nullable_all g Xs <-> Forall (nullable g) Xs.
Proof. split; [induction 1; auto|]. induction 1; constructor; auto. Qed.

(** Symbols that may be empty, one after another in the automaton, are bounded in number *)
Lemma null_path (NH : forall B, ~ gpath true B B) w r d : lr0 g w r d -> forall gamma Xs, w = gamma ++ Xs -> Forall (nullable g) Xs ->
  exists v, NoDup v /\ Forall (fun B => B < V) v /\ Forall (fun B => gpath true B (r_lhs (grule g r))) v /\ List.length Xs <= S (List.length v) * longest + d.
Proof.
  induction 1 as [r ru Hr Hl|w r ru d X al H IH Hr Hn|w r ru d X al q qu H IH Hr Hn Hq Hl]; intros gamma Xs E F.
  - symmetry in E. apply app_eq_nil in E as [_ ->]. exists []. splits; auto; try constructor. cbn. lia.
  - destruct Xs as [|Y Ys _] using rev_ind.
    + exists []. splits; auto; try constructor. cbn. lia.
    + rewrite app_assoc in E. apply app_inj_tail in E as [-> <-]. apply Forall_app in F as [F _].
      destruct (IH gamma Ys eq_refl F) as (v & H1 & H2 & H3 & H4). exists v. splits; auto. rewrite app_length. cbn [List.length]. lia.
  - destruct (IH gamma Xs E F) as (v & H1 & H2 & H3 & H4). rewrite (grule_nth _ _ _ Hr) in H3. rewrite (grule_nth _ _ _ Hq), Hl.
    assert (Ld : d <= longest).
    { pose proof (longest_le r ru Hr). assert (d < List.length (r_rhs ru)) by (apply nth_error_Some; congruence). lia. }
    apply nth_error_split in Hn as (front & rear & Erhs & Lf).
    destruct (le_lt_dec d (List.length Xs)) as [L|L].
    2:{ exists []. splits; auto; try constructor. cbn [List.length]. lia. }
    assert (HL : glead (match front with [] => false | _ => true end) (r_lhs ru) X).
    { exists r, ru, front, al, rear. splits; auto. apply nullable_all_in. rewrite Forall_forall in F |- *. intros Y HY.
      destruct (lr0_back _ _ _ H) as (gb & Eg & _). rewrite (grule_nth _ _ _ Hr), Erhs in Eg. rewrite <- Lf, firstn_app, Nat.sub_diag, firstn_all in Eg. cbn [firstn] in Eg. rewrite app_nil_r in Eg.
      apply F. rewrite E in Eg. rewrite <- (firstn_skipn (List.length Xs - d) Xs), app_assoc in Eg.
      assert (Lx : List.length (map fst front) = List.length (skipn (List.length Xs - d) Xs)) by (rewrite map_length, skipn_length; lia).
      assert (Es : skipn (List.length Xs - d) Xs = map fst front).
      { clear - Eg Lx. apply (f_equal (@rev nat)) in Eg. rewrite !rev_app_distr in Eg. apply app_split_len in Eg as [Eg _]; [|now rewrite !rev_length].
        apply (f_equal (@rev nat)) in Eg. now rewrite !rev_involutive in Eg. }
      rewrite <- Es in HY. rewrite <- (firstn_skipn (List.length Xs - d) Xs). apply in_or_app. now right. }
    assert (HV : Forall (fun B => gpath true B X) v).
    { rewrite Forall_forall in *. intros B HB. change true with (true || match front with [] => false | _ => true end). eapply gp_S; eauto. }
    destruct front as [|fr front]; cbn [List.length] in Lf.
    + subst d. exists v. splits; auto.
    + exists (r_lhs ru :: v). splits; auto.
      * constructor; auto. intros Hi. rewrite Forall_forall in H3. exact (NH _ (H3 _ Hi)).
      * constructor; auto. now apply (lhs_range g W r).
      * constructor; auto. now constructor.
      * cbn [List.length]. rewrite !Nat.mul_succ_l in *. lia.
Qed.

Definition room : nat := S (S V) * longest.
Lemma eps_height (NH : forall B, ~ gpath true B B) delta cb Xs Xb : aspine (delta ++ cb) (Xs ++ Xb) -> Forall2 eps delta Xs -> List.length delta <= room.
Proof.
  intros Hs Hf. pose proof (aspine_path g p unit _ _ Hs) as Hp. rewrite rev_app_distr in Hp.
  destruct Xs as [|X Xs]; [inversion Hf; cbn; lia|].
  assert (HI : exists k, item (top (delta ++ cb)) k).
  { cbn [rev] in Hp. rewrite app_assoc in Hp. apply path_inv_snoc in Hp as (s & _ & He). destruct (proj2 (au_edge g p A _ _ _ He)) as (k & Hk & Hx). exists (kadv k). eapply (au_goto g p A); eauto. }
  destruct HI as ([r d] & Hi). pose proof (item_lr0 g p A _ _ _ Hp Hi) as H0. cbn [fst snd] in H0.
  assert (Fn : Forall (nullable g) (rev (X :: Xs))).
  { apply Forall_rev. clear - Hf. induction Hf as [|e Y st Ys [H1 H2] H IH]; constructor; auto. eapply derives_null; eauto. }
  destruct (null_path NH _ _ _ H0 (rev Xb) (rev (X :: Xs)) eq_refl Fn) as (v & H1 & H2 & _ & H4).
  rewrite rev_length in H4. rewrite (forall2_len _ _ _ Hf).
  pose proof (nodup_below v V H1 H2). assert (d <= longest).
  { destruct (au_valid g p A _ _ Hi) as [Hr Hd]. pose proof (longest_le r _ (nth_grule g r Hr)). unfold ActFacts.rlen in Hd. cbn [fst snd] in *. lia. }
  unfold room. rewrite !Nat.mul_succ_l. assert (List.length v * longest <= V * longest) by now apply Nat.mul_le_mono_r. rewrite Nat.mul_succ_l in H4. lia.
Qed.

Lemma run_room (NH : forall B, ~ gpath true B B) n i c c' : run 0 n i c c' -> forall H delta cb Xs Xb, c = delta ++ cb -> List.length cb <= H ->
  aspine c (Xs ++ Xb) -> Forall2 eps delta Xs -> run 0 (H + room) i c c'.
Proof.
  induction 1 as [c|i b c c' c'' R H1 H2 H IH]; intros h delta cb Xs Xb E L Hs Hf; [constructor|]. subst c.
  assert (Hn : exists d' cb' X' Xb', c' = d' ++ cb' /\ List.length cb' <= h /\ aspine c' (X' ++ Xb') /\ Forall2 eps d' X').
  { destruct (le_lt_dec (List.length c') (List.length cb)) as [Lc|Lc].
    - destruct (ared_spine _ _ _ _ Hs R) as (st1 & st2 & r & q & Xs1 & Xs2 & E1 & E2 & EX & L1 & Hs2 & Hrhs & Hr' & Hraw & He & Hs').
      exists [], c', [], (r_lhs (grule g r) :: Xs2). splits; auto. lia.
    - destruct (ared_eps _ _ _ _ _ _ Hs Hf R Lc) as (d' & X' & E' & Hs' & Hf'). exists d', cb, X', Xb. splits; auto. }
  destruct Hn as (d' & cb' & X' & Xb' & E' & L' & Hs' & Hf'). econstructor; eauto.
  subst c'. pose proof (eps_height NH _ _ _ _ Hs' Hf'). rewrite app_length. lia.
Qed.

Theorem unlimited (NC : forall s Z, ~ ups s Z Z) (NH : forall B, ~ gpath true B B) H : exists N, forall n i c Xs c', List.length c <= H -> aspine c Xs -> run 0 n i c c' -> i <= N.
Proof.
  destruct (limited NC (H + room) H) as (N & HN). exists N. intros n i c Xs c' L Hs Hr.
  eapply HN; eauto. apply (run_room NH n i c c' Hr H [] c [] Xs); auto.
Qed.
End Limit.
