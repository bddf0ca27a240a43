(** Conflict resolution as a tournament: of the actions on one lookahead each meets the one
    still standing, and the loser leaves (mod.rs 1129-1146 and 1165-1220).  Used for the exact
    conditions under which conflicts are reported and rules are lost (C38). *)
From Verif Require Import Base Syntax BaseFacts FrontEnd First States Actions Spec WfGrammar ActFacts GroupFacts.

Definition srb (d : detail) : bool := match d with Shift _ | Reduce _ => true | _ => false end.
Lemma srb_sr d : srb d = true <-> sr d. Proof. destruct d; cbn; split; auto; discriminate || contradiction. Qed.
Lemma srb_no d : srb d = false <-> ~ sr d. Proof. destruct d; cbn; split; auto; intros H; try discriminate; now contradiction H. Qed.

Section Duel.
Context (g : grammar) (la : nat).

Fixpoint duels (c : detail) (l : list detail) : detail * nat :=
  match l with
  | [] => (c, 0)
  | y :: l' =>
      let '(dx, _, e) := resolve_conflict g la c y in
      let '(w, k) := duels (if srb dx then c else y) l' in
      (w, if e then S k else k)
  end.
Definition ord2 (x y : detail) : Prop := forall r t, x = Reduce r -> y <> Shift t.

Lemma duel_step c y dx dy e : sr c -> sr y -> ord2 c y -> resolve_conflict g la c y = (dx, dy, e) ->
  dx = c /\ ~ sr dy \/ ~ sr dx /\ dy = y /\ e = false.
Proof.
  intros Hc Hy Ho H. unfold resolve_conflict in H. destruct c as [t| |r| | | | | | |], y as [t'| |r'| | | | | | |]; try contradiction.
  - injection H as <- <- <-. left. split; auto.
  - destruct (sy_prec (gsym g la)) as [px|], (r_prec (grule g r')) as [py|]; try (injection H as <- <- <-; left; split; auto; fail).
    destruct (precedence_cmp px py); injection H as <- <- <-; auto; left; split; auto.
  - now destruct (Ho r t' eq_refl).
  - destruct (r_prec (grule g r)) as [px|], (r_prec (grule g r')) as [py|]; try (injection H as <- <- <-; left; split; auto; fail).
    destruct (precedence_cmp px py); injection H as <- <- <-; auto; left; split; auto.
Qed.

Lemma against_dead : forall l ap n, ~ sr (a_det ap) -> resolve_against g ap l n = (ap, l, n).
Proof.
  induction l as [|b l IH]; intros [la' d] n H; cbn [resolve_against]; auto. cbn [a_la a_det]. destruct (Nat.eqb_spec la' (a_la b)); auto.
  rewrite resolve_conflict_dead by (cbn in *; tauto). rewrite IH by auto. now destruct b.
Qed.
Lemma all_dead : forall u r n, Forall (fun a => ~ sr (a_det a)) u ->
  resolve_all g (List.length (u ++ r)) (u ++ r) n = (u ++ fst (resolve_all g (List.length r) r n), snd (resolve_all g (List.length r) r n)).
Proof.
  induction u as [|a u IH]; intros r n H; cbn [List.length app resolve_all]; [now destruct (resolve_all g (List.length r) r n)|].
  inversion H as [|? ? H1 H2]; subst. rewrite against_dead by auto. now rewrite IH.
Qed.

Fixpoint ordl (l : list detail) : Prop := match l with [] => True | x :: l' => Forall (ord2 x) l' /\ ordl l' end.
Definition dets (l : list action) : list detail := map a_det l.
Definition live (l : list action) : Prop := Forall (fun a => a_la a = la /\ sr (a_det a)) l.

Lemma against_duel : forall l c n ap' l' n', sr c -> live l -> Forall (ord2 c) (dets l) ->
  resolve_against g (mkAct la c) l n = (ap', l', n') ->
  (ap' = mkAct la c /\ Forall (fun a => ~ sr (a_det a)) l' /\ List.length l' = List.length l /\ fst (duels c (dets l)) = c /\ n' = n + snd (duels c (dets l))) \/
  (exists u y v, l' = u ++ y :: v /\ (exists u0, l = u0 ++ y :: v /\ List.length u0 = List.length u) /\ Forall (fun a => ~ sr (a_det a)) u /\ ~ sr (a_det ap') /\
     n <= n' /\ duels c (dets l) = (fst (duels (a_det y) (dets v)), (n' - n) + snd (duels (a_det y) (dets v)))).
Proof.
  induction l as [|y l IH]; intros c n ap' l' n' Hc HL HO H; cbn [resolve_against] in H.
  - injection H as <- <- <-. left. splits; auto.
  - pose proof (Forall_inv HL) as [Ly Sy]. pose proof (Forall_inv_tail HL) as HL'. cbn in HO. pose proof (Forall_inv HO) as O1. pose proof (Forall_inv_tail HO) as O2. cbn [a_la a_det] in H. rewrite Ly, Nat.eqb_refl in H.
    destruct (resolve_conflict g la c (a_det y)) as [[dx dy] e] eqn:ER. destruct (duel_step c (a_det y) dx dy e Hc Sy O1 ER) as [[-> Hd]|(Hd & -> & ->)].
    + destruct (resolve_against g (mkAct la c) l _) as [[ap2 l2] n2] eqn:E2. injection H as <- <- <-.
      destruct (IH _ _ _ _ _ Hc HL' O2 E2) as [(R1 & R2 & R3 & R4 & R5)|(u & y' & v & R1 & (u0 & R2 & R2') & R3 & R4 & R5 & R6)].
      * left. cbn [dets map]. cbn [duels]. rewrite ER, (proj2 (srb_sr c) Hc). fold (dets l). destruct (duels c (dets l)) as [w k]. cbn in *. splits; auto. destruct e; lia.
      * right. exists (mkAct la dy :: u), y', v. splits; auto.
        -- cbn. now rewrite R1.
        -- exists (y :: u0). cbn. split; [now rewrite R2|lia].
        -- destruct e; lia.
        -- cbn [dets map duels]. rewrite ER, (proj2 (srb_sr c) Hc). fold (dets l). rewrite R6. f_equal. destruct e; lia.
    + rewrite against_dead in H by auto. injection H as <- <- <-. right. exists [], y, l. splits; auto.
      * cbn. rewrite <- Ly. now destruct y.
      * exists []. auto.
      * cbn [dets map duels]. rewrite ER, (proj2 (srb_no dx) Hd). fold (dets l). destruct (duels (a_det y) (dets l)). cbn. f_equal. lia.
Qed.

Lemma ordl_app u v : ordl (u ++ v) -> ordl v.
Proof. induction u as [|x u IH]; cbn; auto. intros [_ H]. auto. Qed.

Theorem all_duel : forall k c l n l' n', List.length l <= k -> sr c -> live l -> ordl (c :: dets l) ->
  resolve_all g (S (List.length l)) (mkAct la c :: l) n = (l', n') ->
  n' = n + snd (duels c (dets l)) /\ In (mkAct la (fst (duels c (dets l)))) l' /\ (forall x, In x l' -> sr (a_det x) -> a_det x = fst (duels c (dets l))).
Proof.
  induction k as [|k IH]; intros c l n l' n' Lk Hc HL HO H; cbn [resolve_all] in H; destruct (resolve_against g (mkAct la c) l n) as [[ap1 l1] n1] eqn:E1;
    destruct (resolve_all g (List.length l) l1 n1) as [l3 n3] eqn:E3; injection H as <- <-; cbn in HO; destruct HO as [HO1 HO2].
  - destruct l; [|cbn in Lk; lia]. cbn in E1. injection E1 as <- <- <-. cbn in E3. injection E3 as <- <-. cbn. splits; auto. intros x [<-|[]] _. reflexivity.
  - destruct (against_duel l c n ap1 l1 n1 Hc HL HO1 E1) as [(R1 & R2 & R3 & R4 & R5)|(u & y & v & R1 & (u0 & R2 & R2') & R3 & R4 & R5 & R6)].
    + rewrite <- R3, <- (app_nil_r l1), all_dead in E3 by auto. cbn in E3. injection E3 as <- <-. rewrite app_nil_r, R4. splits; auto; [left; auto|].
      intros x [<-|Hx] Sx; [now rewrite R1|]. rewrite Forall_forall in R2. exfalso. now apply (R2 x).
    + assert (El : List.length l = List.length (u ++ y :: v)) by (rewrite R2, !app_length; cbn; lia). rewrite El, R1, all_dead in E3 by auto. destruct (resolve_all g (List.length (y :: v)) (y :: v) n1) as [l4 n4] eqn:E4. cbn [fst snd] in E3. injection E3 as <- <-.
      rewrite R2 in HL, HO2, Lk. apply Forall_app in HL as [_ HL]. pose proof (Forall_inv HL) as [Ly Sy]. pose proof (Forall_inv_tail HL) as HLv. unfold dets in HO2. rewrite map_app in HO2. apply ordl_app in HO2.
      rewrite app_length in Lk. cbn in Lk. change (List.length (y :: v)) with (S (List.length v)) in E4.
      replace y with (mkAct la (a_det y)) in E4 by (rewrite <- Ly; now destruct y). destruct (IH (a_det y) v n1 l4 n4 ltac:(lia) Sy HLv HO2 E4) as (Q1 & Q2 & Q3).
      rewrite R6. cbn [fst snd]. splits; [lia|right; apply in_app_iff; now right|]. intros x [<-|Hx] Sx; [contradiction|]. apply in_app_iff in Hx as [Hx|Hx]; [|now apply Q3].
      rewrite Forall_forall in R3. exfalso. now apply (R3 x).
Qed.

(** ** The one still standing *)
Definition dprec (d : detail) : option prec := match d with Shift _ => sy_prec (gsym g la) | Reduce r => r_prec (grule g r) | _ => None end.
Hypothesis OW : forall x y i u v, dprec x = Some (i, u) -> dprec y = Some (i, v) -> u = v.
Definition beats (c x : detail) : Prop := exists i u j v, dprec c = Some (i, u) /\ dprec x = Some (j, v) /\
  (j < i \/ i = j /\ match c, x with
                     | Reduce r, Shift _ => v <> ARight
                     | Reduce r, Reduce q => q < r /\ v = ALeft \/ r < q /\ u = ARight
                     | Shift _, Reduce _ => u = ARight
                     | _, _ => False
                     end).
Definition champ (pre : list detail) (c : detail) : Prop := In c pre /\ forall x, In x pre -> x = c \/ beats c x.
Definition up (x y : detail) : Prop := match x, y with Reduce r, Reduce q => r < q | Shift _, _ => True | _, _ => False end.
Fixpoint upl (l : list detail) : Prop := match l with [] => True | x :: l' => Forall (up x) l' /\ upl l' end.

Lemma upl_app u v : upl (u ++ v) -> upl u /\ upl v /\ forall x y, In x u -> In y v -> up x y.
Proof.
  induction u as [|x u IH]; cbn; [tauto|]. intros [H1 H2]. destruct (IH H2) as (A & B & C). apply Forall_app in H1 as [H1 H1']. splits; auto.
  intros a b [<-|Ha] Hb; auto. rewrite Forall_forall in H1'. auto.
Qed.

Lemma pair_step c y dx dy : sr c -> sr y -> up c y -> resolve_conflict g la c y = (dx, dy, false) ->
  dx = c /\ srb dx = true /\ beats c y \/ srb dx = false /\ beats y c.
Proof.
  intros Hc Hy Hu H. unfold resolve_conflict in H. unfold beats, dprec.
  destruct c as [t| |r| | | | | | |], y as [t'| |r'| | | | | | |]; try contradiction; try discriminate.
  - destruct (sy_prec (gsym g la)) as [[i u]|], (r_prec (grule g r')) as [[j v]|]; try discriminate. unfold precedence_cmp in H. cbn in H.
    destruct (Nat.compare_spec i j) as [->|L|L].
    + destruct u; injection H as <- <-; [right|left|right]; splits; auto; [exists j, v, j, ALeft|exists j, ARight, j, v|exists j, v, j, ANone]; splits; auto; right; split; auto; discriminate.
    + injection H as <- <-. right. split; auto. exists j, v, i, u. auto.
    + injection H as <- <-. left. splits; auto. exists i, u, j, v. auto.
  - destruct (r_prec (grule g r)) as [[i u]|], (r_prec (grule g r')) as [[j v]|]; try discriminate. unfold precedence_cmp in H. cbn in H, Hu.
    destruct (Nat.compare_spec i j) as [->|L|L].
    + destruct u; try discriminate; injection H as <- <-; [right|left]; splits; auto; [exists j, v, j, ALeft|exists j, ARight, j, v]; splits; auto.
    + injection H as <- <-. right. split; auto. exists j, v, i, u. auto.
    + injection H as <- <-. left. splits; auto. exists i, u, j, v. auto.
Qed.

Lemma beats_up x c y : sr x -> sr c -> up x y -> up c y -> beats y c -> beats c x -> beats y x.
Proof.
  intros Sx Sc Ux Uc (i & u & j & v & P1 & P2 & P3) (j' & v' & k & w & Q1 & Q2 & Q3). rewrite P2 in Q1. injection Q1 as <- <-.
  exists i, u, k, w. splits; auto. destruct P3 as [P3|[<- P3]]; [left; destruct Q3 as [Q3|[-> _]]; lia|]. destruct Q3 as [Q3|[<- Q3]]; [auto|]. right. split; auto.
  rewrite <- (OW _ _ _ _ _ P2 Q2) in *. destruct y as [t| |r| | | | | | |], c as [t'| |r'| | | | | | |]; try contradiction; destruct x as [t''| |r''| | | | | | |]; try contradiction; auto; cbn in *; try congruence.
  all: first [congruence|destruct P3 as [[P3 P4]|[P3 _]]; [|lia]; first [now left|congruence]].
Qed.

Lemma champ_step pre c y dx dy : (forall x, In x pre -> sr x /\ up x y) -> sr y -> champ pre c -> resolve_conflict g la c y = (dx, dy, false) ->
  champ (pre ++ [y]) (if srb dx then c else y).
Proof.
  intros HP Sy [Hc HB] H. destruct (HP c Hc) as [Sc Uc]. destruct (pair_step c y dx dy Sc Sy Uc H) as [(-> & -> & B)|[-> B]].
  - split; [apply in_app_iff; auto|]. intros x Hx. apply in_app_iff in Hx as [Hx|[<-|[]]]; auto.
  - split; [apply in_app_iff; right; now left|]. intros x Hx. apply in_app_iff in Hx as [Hx|[<-|[]]]; auto. right. destruct (HB x Hx) as [->|Bx]; auto.
    destruct (HP x Hx). now apply (beats_up x c y).
Qed.

Lemma champ_run : forall l pre c, champ pre c -> (forall x, In x (pre ++ l) -> sr x) -> upl (pre ++ l) -> snd (duels c l) = 0 ->
  champ (pre ++ l) (fst (duels c l)) /\ forall u y v, l = u ++ y :: v -> exists c', champ (pre ++ u) c' /\ snd (resolve_conflict g la c' y) = false.
Proof.
  induction l as [|y l IH]; intros pre c HC HS HU H0.
  - cbn. rewrite app_nil_r. split; auto. intros [|? u] ? ? E; discriminate.
  - cbn in H0. cbn. destruct (resolve_conflict g la c y) as [[dx dy] e] eqn:ER. destruct (duels (if srb dx then c else y) l) as [w k] eqn:ED. cbn in H0. destruct e; [discriminate|]. subst k.
    destruct (upl_app _ _ HU) as (U1 & U2 & U3).
    assert (HC' : champ (pre ++ [y]) (if srb dx then c else y)).
    { eapply champ_step; eauto; [|apply HS, in_app_iff; right; now left]. intros x Hx. split; [apply HS, in_app_iff; auto|]. apply U3; auto. now left. }
    change (y :: l) with ([y] ++ l) in HS, HU. rewrite app_assoc in HS, HU. destruct (IH (pre ++ [y]) _ HC' HS HU) as [R1 R2]; [now rewrite ED|]. rewrite ED in R1. cbn in R1. rewrite <- app_assoc in R1. split; [exact R1|].
    intros [|z u] y' v E; cbn in E; injection E as -> E.
    + exists c. rewrite app_nil_r, ER. auto.
    + destruct (R2 u y' v E) as (c' & C1 & C2). exists c'. rewrite <- app_assoc in C1. auto.
Qed.

Lemma champ_clash : forall l pre c, champ pre c -> (forall x, In x (pre ++ l) -> sr x) -> upl (pre ++ l) -> 0 < snd (duels c l) ->
  exists u y v c', l = u ++ y :: v /\ champ (pre ++ u) c' /\ snd (resolve_conflict g la c' y) = true.
Proof.
  induction l as [|y l IH]; intros pre c HC HS HU H0; cbn in H0; [lia|].
  destruct (resolve_conflict g la c y) as [[dx dy] e] eqn:ER. destruct e.
  - exists [], y, l, c. rewrite app_nil_r, ER. auto.
  - destruct (upl_app _ _ HU) as (U1 & U2 & U3).
    assert (HC' : champ (pre ++ [y]) (if srb dx then c else y)).
    { eapply champ_step; eauto; [|apply HS, in_app_iff; right; now left]. intros x Hx. split; [apply HS, in_app_iff; auto|]. apply U3; auto. now left. }
    change (y :: l) with ([y] ++ l) in HS, HU. rewrite app_assoc in HS, HU. destruct (IH (pre ++ [y]) _ HC' HS HU) as (u & y' & v & c' & R1 & R2 & R3).
    { destruct (duels (if srb dx then c else y) l). exact H0. }
    exists (y :: u), y', v, c'. rewrite R1. splits; auto. rewrite <- app_assoc in R2. exact R2.
Qed.

(** Nothing decides between two of the candidates. *)
Definition undecided_in (L : list detail) : Prop :=
  (exists u t v t' w, L = u ++ Shift t :: v ++ Shift t' :: w) \/
  (exists x y, In x L /\ In y L /\ x <> y /\ dprec x = None) \/
  (exists r q i, r < q /\ In (Reduce r) L /\ In (Reduce q) L /\ dprec (Reduce r) = Some (i, ANone) /\ dprec (Reduce q) = Some (i, ANone) /\
     forall x j v, In x L -> dprec x = Some (j, v) -> i < j -> match x with Reduce q' => q <= q' | _ => False end).

Lemma champ_level pre c x i u : champ pre c -> In x pre -> dprec c = Some (i, u) -> exists j v, dprec x = Some (j, v) /\ j <= i.
Proof.
  intros [_ HB] Hx Hc. destruct (HB x Hx) as [->|(i' & u' & j & v & P1 & P2 & P3)]; [eauto|]. rewrite Hc in P1. injection P1 as <- <-. exists j, v. split; auto. destruct P3 as [P3|[-> _]]; lia.
Qed.

Lemma split_later L x y : upl L -> In x L -> In y L -> x <> y -> up x y -> ~ up y x -> exists u v, L = u ++ y :: v /\ In x u.
Proof.
  intros HU Hx Hy N Ux Uy. apply in_split in Hy as (u & v & ->). apply in_app_iff in Hx as [Hx|[Hx|Hx]]; [eauto|congruence|].
  exfalso. apply Uy. apply upl_app in HU as (_ & [HF _] & _). rewrite Forall_forall in HF. auto.
Qed.

Theorem duel_exact c l : (forall x, In x (c :: l) -> sr x) -> upl (c :: l) -> 0 < snd (duels c l) <-> undecided_in (c :: l).
Proof.
  intros HS HU. assert (C0 : champ [c] c) by (split; [now left|]; intros x [->|[]]; auto). split.
  - intros H. destruct (champ_clash l [c] c C0 HS HU H) as (u & y & v & c' & El & HC & Hc). cbn in HC. assert (EL : c :: l = (c :: u) ++ y :: v) by now rewrite El.
    rewrite EL in *. destruct (upl_app _ _ HU) as (_ & [U2 _] & U3). pose proof (proj1 HC) as Ic. assert (Sc : sr c') by (apply HS, in_app_iff; auto). assert (Sy : sr y) by (apply HS, in_app_iff; right; now left).
    pose proof (U3 c' y Ic (or_introl eq_refl)) as Ucy. unfold resolve_conflict in Hc. destruct c' as [t| |r| | | | | | |], y as [t'| |r'| | | | | | |]; try contradiction.
    + left. apply in_split in Ic as (u1 & u2 & E). exists u1, t, u2, t', v. rewrite E, <- app_assoc. reflexivity.
    + right. left. assert (Iy : In (Reduce r') ((c :: u) ++ Reduce r' :: v)) by (apply in_app_iff; right; now left). assert (Ix : In (Shift t) ((c :: u) ++ Reduce r' :: v)) by (apply in_app_iff; auto).
      destruct (sy_prec (gsym g la)) as [px|] eqn:EX; [|exists (Shift t), (Reduce r'); splits; auto; discriminate].
      destruct (r_prec (grule g r')) as [py|] eqn:EY; [|exists (Reduce r'), (Shift t); splits; auto; discriminate]. destruct (precedence_cmp px py); discriminate.
    + right. assert (Iy : In (Reduce r') ((c :: u) ++ Reduce r' :: v)) by (apply in_app_iff; right; now left). assert (Ix : In (Reduce r) ((c :: u) ++ Reduce r' :: v)) by (apply in_app_iff; auto). cbn in Ucy.
      destruct (r_prec (grule g r)) as [[i a]|] eqn:EX; [|left; exists (Reduce r), (Reduce r'); splits; auto; intros E; injection E as <-; lia].
      destruct (r_prec (grule g r')) as [[j b]|] eqn:EY; [|left; exists (Reduce r'), (Reduce r); splits; auto; intros E; injection E as <-; lia].
      right. unfold precedence_cmp in Hc. cbn in Hc. destruct (Nat.compare_spec i j) as [<-| |]; try discriminate. destruct a; try discriminate.
      assert (b = ANone) by (symmetry; apply (OW (Reduce r) (Reduce r') i); auto). subst b. exists r, r', i. splits; auto.
      intros x k w Hx Hp Hlt. apply in_app_iff in Hx as [Hx|[<-|Hx]].
      * destruct (champ_level _ _ x _ _ HC Hx EX) as (k' & w' & P1 & P2). rewrite P1 in Hp. injection Hp as -> ->. lia.
      * auto.
      * rewrite Forall_forall in U2. specialize (U2 x Hx). destruct x; cbn in U2; try contradiction. lia.
  - intros HB. destruct (Nat.eq_dec (snd (duels c l)) 0) as [H0|]; [exfalso|lia]. destruct (champ_run l [c] c C0 HS HU H0) as [HC HR]. cbn in HC.
    assert (HR' : forall u y v, u <> [] -> c :: l = u ++ y :: v -> exists c', champ u c' /\ snd (resolve_conflict g la c' y) = false).
    { intros [|z u] y v N E; [contradiction|]. cbn in E. injection E as <- E. destruct (HR u y v E) as (c' & R). exists c'. exact R. }
    destruct HB as [(u & t & v & t' & w & E)|[(x & y & Hx & Hy & N & P)|(r & q & i & Lrq & Hr & Hq & Pr & Pq & HN)]].
    + destruct (HR' (u ++ Shift t :: v) (Shift t') w) as (c' & [Ic _] & Hc); [destruct u; discriminate|rewrite E, <- app_assoc; reflexivity|].
      assert (Uc : up c' (Shift t')). { rewrite E in HU. change (u ++ Shift t :: v ++ Shift t' :: w) with (u ++ (Shift t :: v) ++ Shift t' :: w) in HU. rewrite app_assoc in HU. apply upl_app in HU as (_ & _ & U3). apply U3; auto. now left. }
      destruct c'; try contradiction. discriminate.
    + destruct HC as [Ic HBt]. assert (NX : forall z, dprec z = None -> ~ (exists w', beats z w') /\ ~ (exists w', beats w' z)).
      { intros z Hz. split; intros (w' & i & a & j & b & P1 & P2 & _); congruence. }
      destruct (HBt x Hx) as [Ex|B]; [|now apply (proj2 (NX x P)); eauto]. destruct (HBt y Hy) as [->|B]; [congruence|]. rewrite <- Ex in B. apply (proj1 (NX x P)). eauto.
    + destruct (split_later (c :: l) (Reduce r) (Reduce q) HU Hr Hq) as (u & v & E & Iu); [intros E; injection E as <-; lia|cbn; lia|cbn; lia|].
      destruct (HR' u (Reduce q) v) as (c' & HC' & Hc); auto; [destruct u; [contradiction|discriminate]|]. pose proof (proj1 HC') as Ic.
      assert (Icl : In c' (c :: l)) by (rewrite E; apply in_app_iff; auto). pose proof (HS c' Icl) as Sc.
      assert (Uc : up c' (Reduce q)) by (rewrite E in HU; apply upl_app in HU as (_ & _ & U3); apply U3; auto; now left).
      assert (HP : exists a, dprec c' = Some (i, a)).
      { destruct (proj2 HC' _ Iu) as [<-|(i' & a & j & b & P1 & P2 & P3)]; [eauto|]. rewrite Pr in P2. injection P2 as <- <-.
        destruct P3 as [P3|[-> _]]; [|eauto]. exfalso. specialize (HN c' i' a Icl P1 P3). destruct c'; try contradiction. cbn in Uc. lia. }
      destruct HP as [a HP]. assert (a = ANone) by (apply (OW c' (Reduce r) i); auto). subst a.
      destruct (proj2 HC' _ Iu) as [Er|(i' & a & j & b & P1 & P2 & P3)].
      * subst c'. cbn [dprec] in *. unfold resolve_conflict in Hc. rewrite Pr, Pq in Hc. unfold precedence_cmp in Hc. cbn in Hc. rewrite Nat.compare_refl in Hc. discriminate.
      * rewrite HP in P1. injection P1 as <- <-. rewrite Pr in P2. injection P2 as <- <-. destruct P3 as [P3|[_ P3]]; [lia|]. destruct c'; try contradiction; [discriminate|].
        destruct P3 as [[_ P3]|[_ P3]]; discriminate.
Qed.
End Duel.
