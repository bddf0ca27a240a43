(** Conflict resolution, one lookahead at a time (C10, C11, C12). *)
From Coq Require Import Sorted.
From Verif Require Import Base Syntax BaseFacts FrontEnd First States Actions Spec WfGrammar
  ClosureFacts AutoFacts ActFacts CompFacts.

Definition group (la : nat) (l : list action) : list action := filter (fun a => a_la a =? la) l.

Lemma group_in la l a : In a (group la l) <-> In a l /\ a_la a = la.
Proof. unfold group. rewrite filter_In, Nat.eqb_eq. tauto. Qed.

Lemma resolve_against_la g : forall l ap n ap' l1 n1, resolve_against g ap l n = (ap', l1, n1) ->
  a_la ap' = a_la ap /\ map a_la l1 = map a_la l.
Proof.
  induction l as [|nap l IH]; intros ap n ap' l1 n1 H; cbn [resolve_against] in H; [inversion H; auto|].
  destruct (a_la ap =? a_la nap); [|inversion H; auto].
  destruct (resolve_conflict _ _ _ _) as [[dx dy] e]. destruct (resolve_against g _ l _) as [[ap1 l2] n2] eqn:E.
  apply IH in E as [E1 E2]. inversion H; subst. simpl in *. split; auto. now rewrite E2.
Qed.

Lemma sorted_no_group ap l : la_sorted (ap :: l) -> (match l with [] => True | b :: _ => a_la b <> a_la ap end) -> group (a_la ap) l = [].
Proof.
  intros H Hb. destruct (group (a_la ap) l) as [|x r] eqn:E; auto. exfalso.
  assert (Hx : In x (group (a_la ap) l)) by (rewrite E; now left). apply group_in in Hx as [Hx La].
  destruct l as [|b l]; [contradiction|]. inversion H as [|? ? Hs HF]; subst. inversion HF as [|? ? Hle _]; subst.
  destruct Hx as [->|Hx]; [congruence|]. inversion Hs as [|? ? _ HF2]; subst. rewrite Forall_forall in HF2. specialize (HF2 _ Hx). simpl in *. lia.
Qed.

Lemma resolve_against_group g la : forall l ap n ap' l1 n1, la_sorted (ap :: l) ->
  resolve_against g ap l n = (ap', l1, n1) ->
  (a_la ap = la -> resolve_against g ap (group la l) n = (ap', group la l1, n1)) /\
  (a_la ap <> la -> group la l1 = group la l).
Proof.
  induction l as [|nap l IH]; intros ap n ap' l1 n1 Hs H; cbn [resolve_against] in H.
  - inversion H; subst. auto.
  - destruct (Nat.eqb_spec (a_la ap) (a_la nap)) as [He|Hn].
    + destruct (resolve_conflict g (a_la ap) (a_det ap) (a_det nap)) as [[dx dy] e] eqn:Er.
      destruct (resolve_against g (mkAct (a_la ap) dx) l (if e then S n else n)) as [[ap1 l2] n2] eqn:E.
      inversion H; subst ap1 l1 n2. clear H.
      assert (Hs' : la_sorted (mkAct (a_la ap) dx :: l)).
      { inversion Hs as [|? ? H1 HF]; subst. inversion H1; subst. constructor; auto. simpl. inversion HF; auto. }
      destruct (IH _ _ _ _ _ Hs' E) as [I1 I2]. simpl in I1, I2. split.
      * intros La. specialize (I1 La). subst la. simpl. rewrite <- He, Nat.eqb_refl. cbn [resolve_against].
        rewrite He, Nat.eqb_refl, <- He, Er, I1. reflexivity.
      * intros La. simpl. rewrite <- He. destruct (Nat.eqb_spec (a_la ap) la); [congruence|]. auto.
    + inversion H; subst ap' l1 n1. split; auto. intros La. subst la. rewrite (sorted_no_group ap (nap :: l)) by auto. reflexivity.
Qed.

Lemma resolve_all_group g la : forall k l n l', k = List.length l -> la_sorted l -> resolve_all g k l n = (l', n) ->
  resolve_all g (List.length (group la l)) (group la l) n = (group la l', n).
Proof.
  induction k as [|k IH]; intros l n l' Hk Hs H; destruct l as [|ap l]; try discriminate; cbn [resolve_all] in H.
  - inversion H; subst. reflexivity.
  - simpl in Hk. injection Hk as Hk.
    destruct (resolve_against g ap l n) as [[ap1 l1] n1] eqn:E1. destruct (resolve_all g k l1 n1) as [l2 n2] eqn:E2.
    inversion H; subst l' n2. clear H.
    pose proof (resolve_against_le _ _ _ _ _ _ _ E1). pose proof (resolve_all_le _ _ _ _ _ _ E2). assert (n1 = n) by lia. subst n1.
    destruct (resolve_against_la _ _ _ _ _ _ _ E1) as [La Lm]. destruct (resolve_against_group g la _ _ _ _ _ _ Hs E1) as [G1 G2].
    assert (Hk1 : k = List.length l1) by (rewrite <- (map_length a_la l1), Lm, map_length; auto).
    assert (Hs1 : la_sorted l1) by (inversion Hs; subst; apply (la_sorted_map l l1); auto).
    apply (IH l1 n l2 Hk1 Hs1) in E2. unfold group at 1 2 3. cbn [filter]. fold (group la l) (group la l2). rewrite La.
    destruct (Nat.eqb_spec (a_la ap) la) as [He|Hne].
    + cbn [List.length resolve_all]. rewrite (G1 He).
      replace (List.length (group la l)) with (List.length (group la l1)); [now rewrite E2|].
      specialize (G1 He). apply resolve_against_la in G1 as [_ G1]. rewrite <- (map_length a_la), G1, map_length. reflexivity.
    + rewrite <- (G2 Hne). exact E2.
Qed.

(** ** The candidates of one lookahead *)
Definition sh (la t : nat) : action := mkAct la (Shift t).
Definition rd (la r : nat) : action := mkAct la (Reduce r).

Lemma sorted_shape la : forall l, sorted_by action_less l -> (forall a, In a l -> a_la a = la /\ match a_det a with Shift _ | Reduce _ => True | _ => False end) ->
  exists ts rs, l = map (sh la) ts ++ map (rd la) rs.
Proof.
  induction l as [|[la' d] l IH]; intros Hs Hl; [exists [], []; reflexivity|].
  unfold sorted_by in Hs. inversion Hs as [|? ? Hs' HF]; subst.
  destruct IH as (ts & rs & E); auto; [intros a Ha; apply Hl; now right|].
  destruct (Hl (mkAct la' d)) as [E1 E2]; [now left|]. simpl in E1, E2. subst la'. destruct d; try contradiction.
  - exists (s :: ts), rs. rewrite E. reflexivity.
  - destruct ts as [|x ts].
    + exists [], (r :: rs). rewrite E. reflexivity.
    + exfalso. rewrite Forall_forall in HF. specialize (HF (sh la x)). rewrite E in HF. specialize (HF (or_introl eq_refl)).
      apply action_less_false in HF. simpl in HF. destruct HF as [?|[_ HF]]; [lia|]. apply key_less_false in HF. simpl in HF. lia.
Qed.

Lemma sorted_filter {A} (less : A -> A -> bool) f l : sorted_by less l -> sorted_by less (filter f l).
Proof.
  unfold sorted_by. induction 1 as [|a l H IH HF]; simpl; [constructor|]. destruct (f a); auto. constructor; auto.
  rewrite Forall_forall in *. intros x Hx. apply filter_In in Hx as [Hx _]. auto.
Qed.

Lemma filter_filter_comm {A} (f h : A -> bool) l : filter f (filter h l) = filter h (filter f l).
Proof. induction l as [|a l IH]; simpl; auto. destruct (f a) eqn:E1, (h a) eqn:E2; simpl; rewrite ?E1, ?E2, IH; auto. Qed.

Section Group.
Context (g : grammar) (W : wf_grammar g) (p : pst) (A : Aut g p) (p3 : pst) (s : nat) (S3 : settled g p p3 s).
Notation raw := (raw g p s).

(** The candidates: at most one shift, and some rules, in the order of their numbers. *)
Definition cands (la : nat) (ot : option nat) (rs : list nat) : list action :=
  match ot with Some t => [sh la t] | None => [] end ++ map (rd la) rs.

Lemma settled_cands la : la <> g_start g -> exists ot rs,
  (NoDup rs /\ sorted_by action_less (cands la ot rs)) /\ (forall t, raw la (Shift t) <-> ot = Some t) /\ (forall r, raw la (Reduce r) <-> In r rs) /\
  resolve_all g (List.length (cands la ot rs)) (cands la ot rs) 0 = (group la (acts p3 s), 0).
Proof.
  intros Hla. destruct (se_run g p p3 s S3) as (l0 & Hs & HI & HND & HR).
  pose proof (resolve_all_group g la _ l0 0 _ eq_refl (sorted_la_sorted _ Hs) HR) as HG.
  destruct (sorted_shape la (group la l0)) as (ts & rs & E).
  { now apply sorted_filter. }
  { intros [la' d] Hin. apply group_in in Hin as [Hin E]. simpl in *. subst la'. split; auto.
    apply HI in Hin. inversion Hin; subst; auto; congruence. }
  assert (Hin : forall d, raw la d <-> In (mkAct la d) (map (sh la) ts ++ map (rd la) rs)).
  { intros d. rewrite <- HI, <- E, group_in. simpl. tauto. }
  assert (Hts : exists ot, map (sh la) ts = match ot with Some t => [sh la t] | None => [] end).
  { destruct ts as [|t1 [|t2 ts]]; [exists None; auto|exists (Some t1); auto|]. exfalso. rewrite E in HG.
    cbn [map app List.length resolve_all resolve_against sh a_la a_det] in HG. rewrite Nat.eqb_refl in HG. cbn [resolve_conflict] in HG.
    match type of HG with context [resolve_against g ?x ?y 1] => destruct (resolve_against g x y 1) as [[ap1 l1] n1] eqn:E1 end.
    match type of HG with context [resolve_against g ?x ?y ?z] => destruct (resolve_against g x y z) as [[ap2 l2] n2] eqn:E2 end.
    match type of HG with context [resolve_all g ?x ?y ?z] => destruct (resolve_all g x y z) as [l3 n3] eqn:E3 end.
    apply resolve_against_le in E1, E2. apply resolve_all_le in E3. injection HG as _ HG. lia. }
  destruct Hts as [ot Hts]. exists ot, rs. rewrite Hts in *. fold (cands la ot rs) in E, Hin. rewrite E in HG. splits; auto.
  - assert (HN : NoDup (filter is_red (group la l0))).
    { unfold group. rewrite filter_filter_comm. now apply NoDup_filter. }
    rewrite E in HN. unfold cands in HN. rewrite filter_app in HN.
    replace (filter is_red (match ot with Some t => [sh la t] | None => [] end)) with (@nil action) in HN by (destruct ot; auto).
    simpl in HN. replace (filter is_red (map (rd la) rs)) with (map (rd la) rs) in HN; [now apply NoDup_map_inv in HN|].
    clear. induction rs; simpl; f_equal; auto.
  - rewrite <- E. now apply sorted_filter.
  - intros t. rewrite Hin. unfold cands. rewrite in_app_iff, in_map_iff. split.
    + intros [H|(r & H & _)]; [|discriminate]. destruct ot; [|contradiction]. destruct H as [H|[]]. inversion H; auto.
    + intros ->. left. now left.
  - intros r. rewrite Hin. unfold cands. rewrite in_app_iff, in_map_iff. split.
    + intros [H|(r' & H & Hr)]; [destruct ot; [destruct H as [H|[]]; discriminate|contradiction]|]. inversion H; subst. auto.
    + intros H. right. exists r. auto.
Qed.

Lemma group_acts la d : In (mkAct la d) (acts p3 s) <-> In (mkAct la d) (group la (acts p3 s)).
Proof. rewrite group_in. simpl. tauto. Qed.

(** A lone candidate stays. *)
Theorem sole_stays la d : raw la d -> (forall d', raw la d' -> d' = d) ->
  group la (acts p3 s) = [mkAct la d].
Proof.
  intros HR HU. destruct (Nat.eq_dec la (g_start g)) as [->|Hla].
  - destruct (se_run g p p3 s S3) as (l0 & Hs & HI & HND & HRun).
    pose proof (resolve_all_group g (g_start g) _ l0 0 _ eq_refl (sorted_la_sorted _ Hs) HRun) as HG.
    pose proof (se_accept g p p3 s S3) as HA. pose proof (resolve_all_spec g l0 0 _ HRun (sorted_la_sorted _ Hs)) as [F2 _].
    assert (Hlen : List.length (group (g_start g) l0) = List.length (group (g_start g) (acts p3 s))).
    { pose proof (astep_map _ _ F2) as Em. clear -Em. revert Em. unfold group. generalize (acts p3 s) as l'. induction l0 as [|a l IH]; intros [|b l'] Em; try discriminate; auto.
      simpl in *. injection Em as E1 E2. rewrite E1. destruct (a_la b =? g_start g); simpl; auto. }
    assert (H1 : List.length (group (g_start g) (acts p3 s)) <= 1).
    { clear -HA. assert (HA' : forall i j a b, i < j -> nth_error (acts p3 s) i = Some a -> nth_error (acts p3 s) j = Some b -> a_la a = g_start g -> a_la b = g_start g -> False) by exact HA.
      clear HA. revert HA'. generalize (acts p3 s) as l. induction l as [|a l IH]; intros HA; simpl; auto.
      assert (IH' : List.length (group (g_start g) l) <= 1).
      { apply IH. intros i j x y Hij Hx Hy. apply (HA (S i) (S j) x y); auto. lia. }
      unfold group in *. destruct (Nat.eqb_spec (a_la a) (g_start g)) as [Ea|]; auto. simpl.
      destruct (filter _ l) as [|x r] eqn:E; auto. exfalso. assert (Hx : In x (filter (fun a => a_la a =? g_start g) l)) by (rewrite E; now left).
      apply filter_In in Hx as [Hx Lx]. apply Nat.eqb_eq in Lx. apply In_nth_error in Hx as [j Hj]. apply (HA 0 (S j) a x); simpl; auto. lia. }
    assert (H2 : In (mkAct (g_start g) d) (group (g_start g) l0)) by (apply group_in; split; auto; now apply HI).
    rewrite <- Hlen in H1. destruct (group (g_start g) l0) as [|x [|]]; simpl in *; try lia; try contradiction.
    destruct H2 as [->|[]]. now inversion HG.
  - destruct (settled_cands la Hla) as (ot & rs & [N Hsorted] & HT & HRd & HG).
    assert (E : cands la ot rs = [mkAct la d]).
    { unfold cands. destruct ot as [t|].
      - assert (raw la (Shift t)) by now apply HT. pose proof (HU _ H). subst d.
        destruct rs as [|r rs]; [reflexivity|]. assert (raw la (Reduce r)) by (apply HRd; now left). pose proof (HU _ H0). discriminate.
      - destruct d; try (inversion HR; fail).
        + apply HT in HR. discriminate.
        + exfalso. inversion HR. congruence.
        + apply HRd in HR. destruct rs as [|r1 rs]; [contradiction|]. assert (raw la (Reduce r1)) by (apply HRd; now left). pose proof (HU _ H). inversion H0; subst r1.
          destruct rs as [|r2 rs]; [reflexivity|]. assert (raw la (Reduce r2)) by (apply HRd; right; now left). pose proof (HU _ H1). inversion H2; subst.
          inversion N as [|? ? N1 N2]; subst. exfalso. apply N1. now left. }
    rewrite E in HG. cbn in HG. inversion HG. reflexivity.
Qed.

(** Two candidates: the rules of mod.rs 1181-1220. *)
Theorem shift_reduce_pair la t r : raw la (Shift t) -> raw la (Reduce r) ->
  (forall r', raw la (Reduce r') -> r' = r) ->
  exists px py, sy_prec (gsym g la) = Some px /\ r_prec (grule g r) = Some py /\
    group la (acts p3 s) =
      match precedence_cmp px py with
      | Lt => [mkAct la (SHResolved t); mkAct la (Reduce r)]
      | Eq => [mkAct la Error; mkAct la (Reduce r)]
      | Gt => [mkAct la (Shift t); mkAct la (RDResolved r)]
      end.
Proof.
  intros HS HR HU. assert (Hla : la <> g_start g).
  { intros ->. inversion HR as [|? ? _ Hb|]; subst. pose proof (nonterm_ge g W _ (proj1 (wg_start g W))). lia. }
  destruct (settled_cands la Hla) as (ot & rs & [N Hsorted] & HT & HRd & HG).
  apply HT in HS. subst ot. assert (rs = [r]).
  { apply HRd in HR. destruct rs as [|r1 rs]; [contradiction|]. assert (r1 = r) by (apply HU, HRd; now left). subst r1.
    destruct rs as [|r2 rs]; auto. assert (r2 = r) by (apply HU, HRd; right; now left). subst r2. inversion N as [|? ? N1 N2]; subst. exfalso. apply N1. now left. }
  subst rs. unfold cands in HG. cbn [map app List.length resolve_all resolve_against sh rd a_la a_det] in HG. rewrite Nat.eqb_refl in HG. cbn [resolve_conflict] in HG.
  destruct (sy_prec (gsym g la)) as [px|]; [|inversion HG]. destruct (r_prec (grule g r)) as [py|]; [|inversion HG].
  exists px, py. splits; auto. destruct (precedence_cmp px py); inversion HG; auto.
Qed.

Theorem reduce_reduce_pair la r1 r2 : r1 < r2 -> raw la (Reduce r1) -> raw la (Reduce r2) ->
  (forall d, raw la d -> d = Reduce r1 \/ d = Reduce r2) ->
  exists p1 p2, r_prec (grule g r1) = Some p1 /\ r_prec (grule g r2) = Some p2 /\
    match precedence_cmp p1 p2 with
      | Lt => group la (acts p3 s) = [mkAct la (RDResolved r1); mkAct la (Reduce r2)]
      | Eq => False
      | Gt => group la (acts p3 s) = [mkAct la (Reduce r1); mkAct la (RDResolved r2)]
    end.
Proof.
  intros Hlt HR1 HR2 HU. assert (Hla : la <> g_start g).
  { intros ->. inversion HR1 as [|? ? _ Hb|]; subst. pose proof (nonterm_ge g W _ (proj1 (wg_start g W))). lia. }
  destruct (settled_cands la Hla) as (ot & rs & [N Hsorted] & HT & HRd & HG).
  destruct ot as [t|]. { assert (raw la (Shift t)) by now apply HT. destruct (HU _ H); discriminate. }
  assert (E : rs = [r1; r2]).
  { apply HRd in HR1, HR2.
    assert (HU' : forall r, In r rs -> r = r1 \/ r = r2).
    { intros r Hr. apply HRd in Hr. destruct (HU _ Hr) as [E|E]; inversion E; auto. }
    destruct rs as [|x [|y [|z rs]]]; [contradiction| | |].
    - destruct HR1 as [->|[]]. destruct HR2 as [->|[]]. lia.
    - destruct (HU' x) as [->| ->]; [now left| |]; destruct (HU' y) as [->| ->]; try (right; now left); auto.
      + inversion N as [|? ? N1 _]; subst. exfalso. apply N1. now left.
      + exfalso. unfold sorted_by, cands in Hsorted. simpl in Hsorted. inversion Hsorted as [|? ? _ HF]; subst. inversion HF as [|? ? HF1 _]; subst.
        apply action_less_false in HF1. simpl in HF1. destruct HF1 as [?|[_ HF1]]; [lia|]. apply key_less_false in HF1. simpl in HF1. lia.
      + inversion N as [|? ? N1 _]; subst. exfalso. apply N1. now left.
    - exfalso. inversion N as [|? ? N1 N']; subst. inversion N' as [|? ? N2 N'']; subst.
      destruct (HU' x) as [->| ->]; [now left| |]; destruct (HU' y) as [->| ->]; try (right; now left);
        try (apply N1; now left); destruct (HU' z) as [->| ->]; try (right; right; now left); try (apply N1; right; now left); apply N2; now left. }
  subst rs. unfold cands in HG. cbn [map app List.length resolve_all resolve_against sh rd a_la a_det] in HG. rewrite Nat.eqb_refl in HG. cbn [resolve_conflict] in HG.
  destruct (r_prec (grule g r1)) as [p1|]; [|inversion HG]. destruct (r_prec (grule g r2)) as [p2|]; [|inversion HG].
  exists p1, p2. splits; auto. destruct (precedence_cmp p1 p2); inversion HG; auto.
Qed.

(** ** Any number of candidates: the survivor has the highest precedence level *)
Definition plevel (la : nat) (d : detail) : option nat :=
  match d with
  | Shift _ => option_map fst (sy_prec (gsym g la))
  | Reduce r => option_map fst (r_prec (grule g r))
  | _ => None
  end.
Definition sr (d : detail) : Prop := match d with Shift _ | Reduce _ => True | _ => False end.
(** [x] does not outrank [y]. *)
Definition below (la : nat) (x y : detail) : Prop :=
  exists i j, plevel la x = Some i /\ plevel la y = Some j /\ i <= j.

Lemma precedence_cmp_level a b : match precedence_cmp a b with Lt => fst a <= fst b | Eq => fst a = fst b | Gt => fst b <= fst a end.
Proof.
  unfold precedence_cmp. destruct (Nat.compare_spec (fst a) (fst b)); [|lia|lia]. destruct (snd a); lia.
Qed.

Lemma resolve_conflict_below la x y x' y' : sr x -> sr y -> ~ (exists a b, x = Reduce a /\ y = Shift b) ->
  resolve_conflict g la x y = (x', y', false) ->
  (x' = x /\ ~ sr y' /\ below la y x) \/ (~ sr x' /\ y' = y /\ below la x y).
Proof.
  intros Hx Hy Hxy H. unfold resolve_conflict in H. unfold below. destruct x, y; simpl in *; try contradiction; try discriminate.
  - destruct (sy_prec (gsym g la)) as [px|]; [|discriminate]. destruct (r_prec (grule g r)) as [py|]; [|discriminate].
    pose proof (precedence_cmp_level px py). destruct (precedence_cmp px py); inversion H; subst; simpl.
    + right. splits; auto. exists (fst px), (fst py). splits; auto; lia.
    + right. splits; auto. exists (fst px), (fst py). splits; auto; lia.
    + left. splits; auto. exists (fst py), (fst px). splits; auto; lia.
  - exfalso. eauto.
  - destruct (r_prec (grule g r)) as [px|]; [|discriminate]. destruct (r_prec (grule g r0)) as [py|]; [|discriminate].
    pose proof (precedence_cmp_level px py). destruct (precedence_cmp px py); inversion H; subst; simpl.
    + right. splits; auto. exists (fst px), (fst py). splits; auto; lia.
    + left. splits; auto. exists (fst py), (fst px). splits; auto; lia.
Qed.

Lemma resolve_conflict_dead la x y : ~ (sr x /\ sr y) -> resolve_conflict g la x y = (x, y, false).
Proof. intros H. destruct x, y; simpl in *; auto; exfalso; apply H; auto. Qed.

Lemma below_trans la x y z : below la x y -> below la y z -> below la x z.
Proof. intros (i & j & H1 & H2 & H3) (j' & k & H4 & H5 & H6). exists i, k. splits; auto. assert (j = j') by congruence. lia. Qed.

(** shifts come before reductions *)
Definition ordered (l : list action) : Prop :=
  forall i j a b, i < j -> nth_error l i = Some a -> nth_error l j = Some b ->
    forall r t, a_det a = Reduce r -> a_det b <> Shift t.

Lemma resolve_against_below la : forall l ap n ap' l1, (forall a, In a (ap :: l) -> a_la a = la) -> ordered (ap :: l) ->
  resolve_against g ap l n = (ap', l1, n) ->
  (sr (a_det ap) -> ap' = ap \/ (~ sr (a_det ap') /\ exists b, In b l /\ In b l1 /\ sr (a_det b) /\ below la (a_det ap) (a_det b))) /\
  (~ sr (a_det ap) -> ap' = ap /\ l1 = l) /\
  (forall b, In b l -> sr (a_det b) -> In b l1 \/ (sr (a_det ap) /\ below la (a_det b) (a_det ap))).
Proof.
  induction l as [|nap l IH]; intros ap n ap' l1 Hla Hord H; cbn [resolve_against] in H.
  - inversion H; subst. splits; auto; try contradiction.
  - assert (La : a_la ap = la) by (apply Hla; now left). assert (Ln : a_la nap = la) by (apply Hla; right; now left).
    rewrite La, Ln, Nat.eqb_refl in H.
    destruct (resolve_conflict g la (a_det ap) (a_det nap)) as [[dx dy] e] eqn:Er.
    destruct (resolve_against g (mkAct la dx) l (if e then S n else n)) as [[ap1 l2] n2] eqn:E.
    injection H as H1 H2 H3. subst ap1 l1 n2. destruct e. { apply resolve_against_le in E. lia. }
    destruct (resolve_conflict_ok _ _ _ _ _ _ Er) as (D1 & D2 & D3).
    assert (Hla' : forall a, In a (mkAct la dx :: l) -> a_la a = la) by (intros a [<-|Ha]; auto; apply Hla; right; now right).
    assert (Hord' : ordered (mkAct la dx :: l)).
    { intros i j a b Hij Ha Hb r t Hd Hs. destruct j as [|j]; [lia|]. destruct i as [|i]; simpl in *.
      - inversion Ha; subst a. simpl in Hd. subst dx. inversion D1; subst.
        apply (Hord 0 (S (S j)) ap b ltac:(lia) eq_refl Hb r t); auto.
      - apply (Hord (S (S i)) (S (S j)) a b ltac:(lia) Ha Hb r t Hd Hs). }
    destruct (IH _ _ _ _ Hla' Hord' E) as (I1 & I2 & I3). simpl in I1, I2, I3.
    assert (Hdec : sr (a_det ap) /\ sr (a_det nap) \/ ~ (sr (a_det ap) /\ sr (a_det nap))) by (destruct (a_det ap), (a_det nap); simpl; tauto).
    destruct Hdec as [[Sa Sn]|Hdead].
    + assert (Hno : ~ (exists a b, a_det ap = Reduce a /\ a_det nap = Shift b)).
      { intros (a & b & Ea & Eb). apply (Hord 0 1 ap nap ltac:(lia) eq_refl eq_refl a b); auto. }
      destruct (resolve_conflict_below _ _ _ _ _ Sa Sn Hno Er) as [(-> & N2 & B)|(N1 & -> & B)].
      * replace (mkAct la (a_det ap)) with ap in * by (destruct ap; simpl in *; congruence).
        splits.
        -- intros _. destruct (I1 Sa) as [->|(N & b & Hb1 & Hb2 & Hb3)]; auto. right. split; auto. exists b. splits; [now right|now right| |]; tauto.
        -- tauto.
        -- intros b [<-|Hb] Hsr; auto. destruct (I3 b Hb Hsr) as [?|?]; auto. left. now right.
      * destruct (I2 N1) as [-> ->]. replace (mkAct la (a_det nap)) with nap by (destruct nap; simpl in *; congruence).
        splits; [|tauto|].
        -- intros _. right. split; auto. exists nap. splits; [now left|now left|auto|auto].
        -- intros b Hb _. auto.
    + rewrite (resolve_conflict_dead _ _ _ Hdead) in Er. inversion Er; subst dx dy.
      replace (mkAct la (a_det ap)) with ap in * by (destruct ap; simpl in *; congruence).
      replace (mkAct la (a_det nap)) with nap by (destruct nap; simpl in *; congruence). splits.
      * intros Sa. destruct (I1 Sa) as [->|(N & b & Hb1 & Hb2 & Hb3)]; auto. right. split; auto. exists b. splits; [now right|now right| |]; tauto.
      * intros Sa. destruct (I2 Sa) as [-> ->]. auto.
      * intros b [<-|Hb] Hsr; [left; now left|]. destruct (I3 b Hb Hsr) as [?|?]; auto. left. now right.
Qed.

Lemma resolve_all_below la : forall k l n l', k = List.length l -> (forall a, In a l -> a_la a = la) -> ordered l ->
  resolve_all g k l n = (l', n) ->
  forall b, In b l -> sr (a_det b) -> exists c, In c l /\ In c l' /\ sr (a_det c) /\ (b = c \/ below la (a_det b) (a_det c)).
Proof.
  induction k as [|k IH]; intros l n l' Hk Hla Hord H b Hb Hsr; destruct l as [|ap l]; try discriminate; [contradiction|].
  cbn [resolve_all] in H. simpl in Hk. injection Hk as Hk.
  destruct (resolve_against g ap l n) as [[ap1 l1] n1] eqn:E1. destruct (resolve_all g k l1 n1) as [l2 n2] eqn:E2.
  injection H as H1 H2. subst l' n2.
  pose proof (resolve_against_le _ _ _ _ _ _ _ E1). pose proof (resolve_all_le _ _ _ _ _ _ E2). assert (n1 = n) by lia. subst n1.
  destruct (resolve_against_la _ _ _ _ _ _ _ E1) as [La Lm].
  assert (Hs : la_sorted (ap :: l)).
  { clear -Hla. assert (HF : Forall (fun a => a_la a = la) (ap :: l)) by (apply Forall_forall; auto). clear Hla. induction HF as [|a l0 Ha HF IH]; constructor; auto.
    eapply Forall_impl; [|exact HF]. simpl. intros. lia. }
  destruct (resolve_against_spec _ _ _ _ _ _ E1 Hs) as (_ & F2 & _).
  assert (Hk1 : k = List.length l1) by (rewrite <- (map_length a_la l1), Lm, map_length; auto).
  assert (Hla1 : forall a, In a l1 -> a_la a = la).
  { intros a Ha. destruct (forall2_in_r _ _ _ _ F2 Ha) as (a0 & Ha0 & [Ea _]). rewrite <- Ea. apply Hla. now right. }
  assert (Hord1 : ordered l1).
  { intros i j a c Hij Ha Hc r t Hd Hsh. destruct (forall2_nth _ _ _ F2 _ _ Ha) as (a0 & Ha0 & [_ Da]), (forall2_nth _ _ _ F2 _ _ Hc) as (c0 & Hc0 & [_ Dc]).
    rewrite Hd in Da. rewrite Hsh in Dc. apply (Hord (S i) (S j) a0 c0 ltac:(lia) Ha0 Hc0 r t).
    - inversion Da; auto.
    - inversion Dc; auto. }
  destruct (resolve_against_below la _ _ _ _ _ Hla Hord E1) as (I1 & I2 & I3).
  specialize (IH l1 n l2 Hk1 Hla1 Hord1 E2).
  assert (Hback : forall x, In x l1 -> sr (a_det x) -> In x l).
  { intros x Hx Sx. destruct (forall2_in_r _ _ _ _ F2 Hx) as (x0 & Hx0 & [Ex Dx]).
    assert (a_det x0 = a_det x) by (apply dstep_live; auto; destruct (a_det x); simpl in *; auto).
    replace x with x0; auto. destruct x, x0; simpl in *; congruence. }
  assert (Hrest : forall x, In x l1 -> sr (a_det x) -> exists c, In c (ap :: l) /\ In c (ap1 :: l2) /\ sr (a_det c) /\ (x = c \/ below la (a_det x) (a_det c))).
  { intros x Hx Sx. destruct (IH x Hx Sx) as (c & C1 & C2 & C3 & C4). exists c. splits; auto; right; auto. }
  assert (Hap : sr (a_det ap) -> exists c, In c (ap :: l) /\ In c (ap1 :: l2) /\ sr (a_det c) /\ (ap = c \/ below la (a_det ap) (a_det c))).
  { intros Sa. destruct (I1 Sa) as [->|(_ & x & X1 & X2 & X3 & X4)].
    - exists ap. splits; auto; now left.
    - destruct (Hrest x X2 X3) as (c & C1 & C2 & C3 & C4). exists c. splits; auto. right. destruct C4 as [<-|C4]; auto. eapply below_trans; eauto. }
  destruct Hb as [<-|Hb]; [auto|]. destruct (I3 b Hb Hsr) as [Hin|[Sa Bl]]; [auto|].
  destruct (Hap Sa) as (c & C1 & C2 & C3 & C4). exists c. splits; auto. right. destruct C4 as [<-|C4]; auto. eapply below_trans; eauto.
Qed.

(** Every candidate is the one that stays, or is outranked (weakly) by it; in
    the latter case both have a precedence. *)
Theorem survivor_max la d : la <> g_start g -> raw la d ->
  exists c, raw la c /\ In (mkAct la c) (acts p3 s) /\ live c /\ (d = c \/ below la d c).
Proof.
  intros Hla HR. destruct (settled_cands la Hla) as (ot & rs & [N Hsorted] & HT & HRd & HG).
  assert (Hin : forall d, In (mkAct la d) (cands la ot rs) -> raw la d).
  { intros d0. unfold cands. rewrite in_app_iff, in_map_iff. intros [H|(r & H & Hr)].
    - destruct ot; [|contradiction]. destruct H as [H|[]]. inversion H; subst. now apply HT.
    - inversion H; subst. now apply HRd. }
  assert (Hd : In (mkAct la d) (cands la ot rs) /\ sr d).
  { unfold cands. rewrite in_app_iff, in_map_iff. inversion HR; subst.
    - apply HT in HR. subst ot. split; [left; now left|exact I].
    - apply HRd in HR. split; [right; exists r; auto|exact I].
    - congruence. }
  destruct Hd as [Hd Sd].
  assert (H1 : forall a, In a (cands la ot rs) -> a_la a = la).
  { intros a. unfold cands. rewrite in_app_iff, in_map_iff. intros [H|(r & <- & _)]; auto. destruct ot; [|contradiction]. destruct H as [<-|[]]. reflexivity. }
  assert (H2 : ordered (cands la ot rs)).
  { unfold cands. intros i j a b Hij Ha Hb r t Er Es. destruct b as [lb db]. simpl in Es. subst db.
    assert (Hj : j = 0).
    { destruct ot as [t0|]; simpl in Hb.
      - destruct j; auto. simpl in Hb. rewrite nth_error_map in Hb. destruct (nth_error rs j); discriminate.
      - rewrite nth_error_map in Hb. destruct (nth_error rs j); discriminate. }
    lia. }
  destruct (resolve_all_below la _ (cands la ot rs) 0 _ eq_refl H1 H2 HG (mkAct la d) Hd Sd) as ([la' c] & C1 & C2 & C3 & C4).
  apply group_in in C2 as [C2 E]. simpl in E. subst la'. simpl in C3, C4. exists c. splits; auto.
  - destruct c; simpl in *; auto.
  - destruct C4 as [C4|C4]; auto. left. congruence.
Qed.
End Group.

(** ** What compression may assume *)
Section Settled.
Context (g : grammar) (W : wf_grammar g) (p : pst) (A : Aut g p) (p3 : pst) (s : nat) (S3 : settled g p p3 s).

Lemma raw_not_dflt la d : raw g p s la d -> la <> g_dflt g.
Proof.
  intros R. pose proof (wg_dflt_range g W) as Hd. inversion R as [X t m E C|r b _ Hb|Hs]; subst; try lia.
  - destruct (edge_sym g W p A _ _ _ E) as (_ & _ & H & _). unfold covers in C. destruct (kind_at g X) as [[| |ms]|] eqn:K; subst; auto.
    destruct (wg_multi g W X ms la K C) as (_ & _ & Hk). intros ->. apply Hk. apply (wg_nonterm g W). lia.
  - apply (wg_start g W).
Qed.

Lemma settled_src la d : In (mkAct la d) (acts p3 s) -> exists d0, raw g p s la d0 /\ dstep d0 d.
Proof.
  destruct (se_src g p p3 s S3) as (l0 & Hs & F2 & HI). intros Hin. destruct (forall2_in_r _ _ _ _ F2 Hin) as ([la0 d0] & H0 & [E D]).
  simpl in *. subst la0. exists d0. split; auto. now apply HI.
Qed.

Theorem settled_grouped : grouped g (acts p3 s).
Proof.
  destruct (se_src g p p3 s S3) as (l0 & Hs & F2 & HI).
  assert (Hord : forall i j a b, i < j -> nth_error l0 i = Some a -> nth_error l0 j = Some b -> action_less b a = false).
  { clear -Hs. unfold sorted_by in Hs. induction Hs as [|x l H IH HF]; intros i j a b Hij Ha Hb; [destruct i; discriminate|].
    destruct j as [|j]; [lia|]. simpl in Hb. destruct i as [|i]; simpl in Ha.
    - inversion Ha; subst x. rewrite Forall_forall in HF. apply HF. eapply nth_error_In; eauto.
    - eapply (IH i j); eauto. lia. }
  constructor.
  - eapply la_sorted_map; [apply astep_map; exact F2|now apply sorted_la_sorted].
  - assert (HG : forall i j la d d', i < j -> nth_error (acts p3 s) i = Some (mkAct la d) -> nth_error (acts p3 s) j = Some (mkAct la d') ->
        live d -> live d' -> False).
    { intros i j la d d' Hij Ha Hb Ld Ld'.
      destruct (forall2_nth _ _ _ F2 _ _ Ha) as ([la1 d1] & H1 & [E1 D1]), (forall2_nth _ _ _ F2 _ _ Hb) as ([la2 d2] & H2 & [E2 D2]).
      simpl in *. subst la1 la2. rewrite (dstep_live _ _ D1 Ld) in *. rewrite (dstep_live _ _ D2 Ld') in *.
      pose proof (Hord _ _ _ _ Hij H1 H2) as Hl. apply action_less_false in Hl. simpl in Hl. destruct Hl as [?|[_ Hl]]; [lia|]. apply key_less_false in Hl.
      pose proof (se_nobad g p p3 s S3 i j _ _ Hij Ha Hb eq_refl) as NB. simpl in NB.
      assert (R1 : raw g p s la d) by (apply HI; eapply nth_error_In; eauto). assert (R2 : raw g p s la d') by (apply HI; eapply nth_error_In; eauto).
      assert (NS : la <> g_start g).
      { intros ->. eapply (se_accept g p p3 s S3 i j); eauto. }
      destruct d, d'; simpl in *; try contradiction; try lia; try (inversion R1; congruence); inversion R2; congruence. }
    intros la d d' H1 H2 Ld Ld'. apply In_nth_error in H1 as [i Hi]. apply In_nth_error in H2 as [j Hj].
    destruct (lt_eq_lt_dec i j) as [[Hij| ->]|Hij].
    + exfalso. eapply HG; eauto.
    + rewrite Hi in Hj. congruence.
    + exfalso. eapply HG; eauto.
  - intros la a r Hf Ha He. unfold first_at in Hf.
    assert (HF : exists i, nth_error (acts p3 s) i = Some a /\ a_la a = la /\ forall j b, nth_error (acts p3 s) j = Some b -> a_la b = la -> i <= j).
    { clear -Hf. revert Hf. generalize (acts p3 s) as l. induction l as [|x l IH]; simpl; [discriminate|]. destruct (Nat.eqb_spec (a_la x) la) as [E|E].
      - intros H. inversion H; subst. exists 0. splits; auto. intros; lia.
      - intros H. destruct (IH H) as (i & I1 & I2 & I3). exists (S i). splits; auto. intros [|j] b Hb La; simpl in Hb; [inversion Hb; subst; contradiction|]. specialize (I3 j b Hb La). lia. }
    destruct HF as (i & Hi & La & Hmin). apply In_nth_error in He as [j Hj].
    pose proof (Hmin j _ Hj eq_refl) as Hle. assert (i <> j). { intros ->. rewrite Hi in Hj. injection Hj as Hj. rewrite Hj in Ha. discriminate Ha. }
    destruct (forall2_nth _ _ _ F2 _ _ Hi) as ([la1 d1] & H1 & [E1 D1]), (forall2_nth _ _ _ F2 _ _ Hj) as ([la2 d2] & H2 & [E2 D2]). simpl in *. subst la2.
    rewrite Ha in D1. assert (d1 = Reduce r) by (inversion D1; auto). subst d1.
    assert (Hsh : exists t, d2 = Shift t).
    { assert (R : raw g p s la d2) by (apply HI; eapply nth_error_In; eauto). destruct d2; eauto; try (inversion D2; fail); inversion R. }
    destruct Hsh as [t ->]. pose proof (Hord i j _ _ ltac:(lia) H1 H2) as Hl. apply action_less_false in Hl. simpl in Hl.
    destruct Hl as [?|[_ Hl]]; [lia|]. apply key_less_false in Hl. simpl in Hl. lia.
  - intros d Hin. apply settled_src in Hin as (d0 & R & _). apply raw_not_dflt in R. contradiction.
Qed.
End Settled.
