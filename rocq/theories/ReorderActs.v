(** The actions of the states of two grammars that differ only in the order of the rules added for
    optional symbols: up to the names of rules and states they are the same lists, before and after
    the default reductions are chosen (C31). *)
From Verif Require Import Base Syntax BaseFacts FrontEnd First States Actions Spec WfGrammar ClosureFacts AutoFacts ActFacts CompFacts
  FaultSpec FaultDuel FaultAct LalrFacts Reorder ReorderStates Claims13.
From Coq Require Import Sorting.Permutation FinFun.

(** ** Lists *)
Lemma sorted_unique {A} (less : A -> A -> bool) : forall l l', sorted_by less l -> sorted_by less l' -> NoDup l -> NoDup l' -> (forall x, In x l <-> In x l') ->
  (forall x y, In x l -> In y l -> less x y = false -> less y x = false -> x = y) -> l = l'.
Proof.
  induction l as [|x l IH]; intros l' S1 S2 N1 N2 HI HA.
  - destruct l' as [|y l']; auto. destruct (proj2 (HI y)). now left.
  - destruct l' as [|y l']; [destruct (proj1 (HI x)); now left|]. unfold sorted_by in S1, S2. inversion S1 as [|? ? S1' F1]; subst. inversion S2 as [|? ? S2' F2]; subst.
    inversion N1 as [|? ? M1 N1']; subst. inversion N2 as [|? ? M2 N2']; subst. rewrite Forall_forall in F1, F2.
    assert (E : x = y).
    { destruct (proj1 (HI x) (or_introl eq_refl)) as [E|Hx]; auto. destruct (proj2 (HI y) (or_introl eq_refl)) as [E|Hy]; auto.
      apply HA; [now left|now right|apply F2; auto|apply F1; auto]. }
    subst y. f_equal. apply IH; auto.
    + intros z. split; intros Hz.
      * destruct (proj1 (HI z) (or_intror Hz)) as [E|]; auto. now subst.
      * destruct (proj2 (HI z) (or_intror Hz)) as [E|]; auto. now subst.
    + intros u v Hu Hv. apply HA; now right.
Qed.
Lemma sorted_map {A B} (less : A -> A -> bool) (less' : B -> B -> bool) (h : A -> B) l : (forall x y, In x l -> In y l -> less' (h x) (h y) = less x y) ->
  sorted_by less l -> sorted_by less' (map h l).
Proof.
  unfold sorted_by. intros HL HS. induction HS as [|x l HS IH HF]; cbn; constructor.
  - apply IH. intros u v Hu Hv. apply HL; now right.
  - rewrite Forall_forall in *. intros y Hy. apply in_map_iff in Hy as (z & <- & Hz). rewrite HL; [auto|now right|now left].
Qed.
Lemma sinsert_map {A B} (less : A -> A -> bool) (less' : B -> B -> bool) (h : A -> B) x : forall l, (forall y, In y l -> less' (h y) (h x) = less y x) ->
  (forall y, In y l -> less' (h x) (h y) = less x y) -> sinsert less' (h x) (map h l) = map h (sinsert less x l).
Proof.
  induction l as [|y l IH]; intros H1 H2; cbn; auto. rewrite ?H1, ?H2 by now left. destruct (less _ _); cbn; auto. f_equal. apply IH; intros z Hz; [apply H1|apply H2]; now right.
Qed.
Lemma ssort_map {A B} (less : A -> A -> bool) (less' : B -> B -> bool) (h : A -> B) : forall l, (forall x y, In x l -> In y l -> less' (h x) (h y) = less x y) ->
  ssort less' (map h l) = map h (ssort less l).
Proof.
  induction l as [|x l IH]; intros H; cbn; auto. rewrite IH by (intros; apply H; now right). apply sinsert_map; intros y Hy; apply ssort_in in Hy; apply H; (now left) || now right.
Qed.
Lemma before_nodup {T} (l : list T) : (forall x, ~ before l x x) -> NoDup l.
Proof.
  induction l as [|x l IH]; intros H; constructor.
  - intros Hx. apply (H x). now apply before_head.
  - apply IH. intros y Hy. apply (H y). now apply before_cons.
Qed.

(** ** Renaming actions *)
Section Ren.
Context (phi sig : nat -> nat).
Definition ren_det (d : detail) : detail :=
  match d with
  | Shift s => Shift (sig s) | SSConflict s => SSConflict (sig s) | SHResolved s => SHResolved (sig s)
  | Reduce r => Reduce (phi r) | SRConflict r => SRConflict (phi r) | RRConflict r => RRConflict (phi r) | RDResolved r => RDResolved (phi r)
  | Accept => Accept | Error => Error | NotUsed => NotUsed
  end.
Definition ren_act (a : action) : action := mkAct (a_la a) (ren_det (a_det a)).
End Ren.

Section Equi.
Context (n : nat) (g1 g2 : grammar) (phi psi : nat -> nat) (RD : reord n g1 g2 phi psi).
Context (sig tau : nat -> nat) (ST : forall s, tau (sig s) = s).
Notation rn := (ren_det phi sig).
Notation ra := (ren_act phi sig).

Lemma phi_eqb r q : (phi r =? phi q) = (r =? q).
Proof.
  destruct (Nat.eqb_spec r q) as [->|N]; [apply Nat.eqb_refl|]. apply Nat.eqb_neq. intros E. apply N. rewrite <- (rd_phi _ _ _ _ _ RD r), E. apply (rd_phi _ _ _ _ _ RD).
Qed.
Lemma sig_eqb s t : (sig s =? sig t) = (s =? t).
Proof. destruct (Nat.eqb_spec s t) as [->|N]; [apply Nat.eqb_refl|]. apply Nat.eqb_neq. intros E. apply N. rewrite <- (ST s), E. apply ST. Qed.
Lemma rn_inj d d' : rn d = rn d' -> d = d'.
Proof.
  assert (HP : forall r q, phi r = phi q -> r = q) by (intros r q E; apply Nat.eqb_eq; rewrite <- phi_eqb; now apply Nat.eqb_eq).
  assert (HS : forall r q, sig r = sig q -> r = q) by (intros r q E; apply Nat.eqb_eq; rewrite <- sig_eqb; now apply Nat.eqb_eq).
  destruct d, d'; cbn; intros E; try discriminate; try reflexivity; injection E as E; f_equal; auto.
Qed.
Lemma ra_inj a b : ra a = ra b -> a = b.
Proof. destruct a as [x d], b as [y e]. unfold ren_act. cbn. intros E. injection E as -> E. f_equal. now apply rn_inj. Qed.

Lemma rn_conflict la x y : resolve_conflict g1 la (rn x) (rn y) = (rn (fst (fst (resolve_conflict g2 la x y))), rn (snd (fst (resolve_conflict g2 la x y))), snd (resolve_conflict g2 la x y)).
Proof.
  unfold resolve_conflict. destruct x, y; cbn; auto; rewrite ?(rd_gsym _ _ _ _ _ RD), ?(rd_grule _ _ _ _ _ RD).
  - destruct (sy_prec (gsym g1 la)), (r_prec (grule g1 (phi r))); cbn; auto. destruct (precedence_cmp _ _); auto.
  - destruct (r_prec (grule g1 (phi r))), (r_prec (grule g1 (phi r0))); cbn; auto. destruct (precedence_cmp _ _); auto.
Qed.
Lemma ra_against : forall l ap m, resolve_against g1 (ra ap) (map ra l) m =
  (ra (fst (fst (resolve_against g2 ap l m))), map ra (snd (fst (resolve_against g2 ap l m))), snd (resolve_against g2 ap l m)).
Proof.
  induction l as [|b l IH]; intros ap m; cbn [map resolve_against]; auto. change (a_la (ra ap)) with (a_la ap). change (a_la (ra b)) with (a_la b). destruct (a_la ap =? a_la b); auto.
  change (a_det (ra ap)) with (rn (a_det ap)). change (a_det (ra b)) with (rn (a_det b)). rewrite rn_conflict. destruct (resolve_conflict g2 (a_la ap) (a_det ap) (a_det b)) as [[dx dy] e]. cbn [fst snd].
  change (mkAct (a_la ap) (rn dx)) with (ra (mkAct (a_la ap) dx)). rewrite IH. destruct (resolve_against g2 _ l _) as [[a1 l1] m1]. reflexivity.
Qed.
Lemma ra_all : forall k l m, resolve_all g1 k (map ra l) m = (map ra (fst (resolve_all g2 k l m)), snd (resolve_all g2 k l m)).
Proof.
  induction k as [|k IH]; intros l m; cbn [resolve_all]; auto. destruct l as [|ap l]; cbn [map]; auto. rewrite ra_against. destruct (resolve_against g2 ap l m) as [[a1 l1] m1]. cbn [fst snd].
  rewrite IH. destruct (resolve_all g2 k l1 m1) as [l2 m2]. reflexivity.
Qed.

(** *** Default reductions *)
Lemma rn_equal d e : detail_equal (rn d) (rn e) = detail_equal d e.
Proof. destruct d, e; cbn; auto using phi_eqb, sig_eqb. Qed.
Lemma find_ra la : forall l, find (fun a => a_la a =? la) (map ra l) = option_map ra (find (fun a => a_la a =? la) l).
Proof. induction l as [|a l IH]; cbn; auto. destruct (a_la a =? la); auto. Qed.
Lemma ra_differs d l : forall k sym, fallback_differs k g1 (map ra l) (rn d) sym = fallback_differs k g2 l d sym.
Proof.
  induction k as [|k IH]; intros sym; cbn [fallback_differs]; auto. rewrite (rd_gsym _ _ _ _ _ RD). destruct (sy_fb (gsym g1 sym)) as [fb|]; auto. rewrite find_ra.
  destruct (find _ l) as [a2|]; cbn [option_map]; auto. change (a_det (ra a2)) with (rn (a_det a2)). rewrite rn_equal, IH. reflexivity.
Qed.
Lemma agree_differs g l d : forall k k' sym, agree (fallback_differs k g l d sym) (fallback_differs k' g l d sym).
Proof.
  induction k as [|k IH]; intros [|k'] sym; cbn [fallback_differs]; [left|left|right; left|]; auto. destruct (sy_fb (gsym g sym)) as [fb|]; [|apply agree_refl].
  destruct (find _ l) as [a2|]; auto. destruct (detail_equal d (a_det a2)); auto. apply agree_refl.
Qed.
Lemma gfold_map {A B C} (f : C -> B -> gres C) (h : A -> B) : forall l c, gfold f (map h l) c = gfold (fun c a => f c (h a)) l c.
Proof. induction l as [|a l IH]; intros c; cbn [map gfold]; auto. destruct (f c (h a)); cbn; auto. Qed.
Lemma ra_ignored k k' l : agree (ignored_actions k g1 (map ra l)) (ignored_actions k' g2 l).
Proof.
  unfold ignored_actions. rewrite (rd_fe _ _ _ _ _ RD). cbn. destruct (f_has_fb (g_fe g1)); [|apply agree_refl]. rewrite gfold_map. apply agree_fold. intros s a. cbn [a_la a_det ren_act].
  rewrite ra_differs. apply agree_bind; [apply agree_differs|]. intros b. apply agree_refl.
Qed.
Lemma rn_rbest b r : is_rbest (option_map phi b) (phi r) = is_rbest b r.
Proof. destruct b; cbn; auto using phi_eqb. Qed.
Lemma ra_count ign b rp : forall l m, fold_left (fun m a => if smem (a_la a) ign then m else match a_det a with Reduce q => if is_rbest (option_map phi b) q then m else if q =? phi rp then S m else m | _ => m end) (map ra l) m =
  fold_left (fun m a => if smem (a_la a) ign then m else match a_det a with Reduce q => if is_rbest b q then m else if q =? rp then S m else m | _ => m end) l m.
Proof.
  induction l as [|a l IH]; intros m; cbn [map fold_left]; auto. rewrite IH. f_equal. cbn [a_la a_det ren_act]. destruct (smem _ _); auto. destruct (a_det a); cbn [ren_det]; auto. rewrite rn_rbest, phi_eqb. reflexivity.
Qed.
Lemma ra_lhs r : lhs_start g1 (phi r) = lhs_start g2 r.
Proof. unfold lhs_start. now rewrite (rd_grule _ _ _ _ _ RD), (rd_start _ _ _ _ _ RD). Qed.
Definition ren_best (b : best) : best := mkBest (b_n b) (option_map phi (b_rule b)) (b_wild b).
Lemma ra_best ign : forall l b, find_best g1 ign (map ra l) (ren_best b) = ren_best (find_best g2 ign l b).
Proof.
  induction l as [|a l IH]; intros b; cbn [map find_best]; auto. cbn [a_la a_det ren_act]. rewrite (rd_wild _ _ _ _ _ RD). destruct (smem (a_la a) ign); auto.
  destruct (a_det a); cbn [ren_det]; auto.
  - destruct (g_wild g1) as [w|]; auto. destruct (a_la a =? w); rewrite <- IH; reflexivity.
  - rewrite ra_lhs. destruct (lhs_start g2 r); auto. cbn [b_rule ren_best]. rewrite rn_rbest. destruct (is_rbest (b_rule b) r); auto.
    cbv zeta. unfold count_reduce. rewrite ra_count. rewrite <- IH. f_equal. cbn [b_n ren_best]. match goal with |- context [if ?c then _ else _] => destruct c end; reflexivity.
Qed.
Lemma ra_is r a : is_reduce (phi r) (ra a) = is_reduce r a.
Proof. unfold is_reduce. cbn. destruct (a_det a); cbn; auto using phi_eqb. Qed.
Lemma ra_unuse ign r a : unuse ign (phi r) (ra a) = ra (unuse ign r a).
Proof. unfold unuse. rewrite ra_is. change (a_la (ra a)) with (a_la a). destruct (smem _ _); auto. destruct (is_reduce r a); auto. Qed.
Lemma ra_default ign r : forall l, make_default g1 ign (phi r) (map ra l) = map ra (make_default g2 ign r l).
Proof.
  induction l as [|a l IH]; cbn [map make_default]; auto. rewrite ra_is, IH. change (a_la (ra a)) with (a_la a). rewrite (rd_dflt _ _ _ _ _ RD). destruct (_ && _); auto. cbn [map]. f_equal.
  rewrite !map_map. apply map_ext. intros b. apply ra_unuse.
Qed.
Lemma default_from ign r : forall l x, In x (make_default g2 ign r l) -> In x l \/ a_det x = NotUsed \/ x = mkAct (g_dflt g2) (Reduce r).
Proof.
  induction l as [|a l IH]; cbn [make_default]; intros x Hx; [contradiction|]. destruct (negb (smem (a_la a) ign) && is_reduce r a) eqn:E.
  - apply andb_true_iff in E as [_ E]. destruct Hx as [<-|Hx].
    + right. right. f_equal. unfold is_reduce in E. destruct (a_det a); try discriminate. apply Nat.eqb_eq in E. now subst.
    + apply in_map_iff in Hx as (b & <- & Hb). unfold unuse. destruct (smem _ _); [now left; right|]. destruct (is_reduce r b); [now right; left|now left; right].
  - destruct Hx as [<-|Hx]; [now left; left|]. destruct (IH x Hx) as [H|H]; auto. left. now right.
Qed.
End Equi.

(** ** What a state offers, when no conflict is left *)
Section Raw.
Context (g : grammar) (W : wf_grammar g) (p : pst) (A : Aut g p) (NC : ~ conflicting g).
Notation ns := (List.length (p_states p)).

Lemma raw_term s la d : raw g p s la d -> match d with Reduce _ => la < g_nterm g | _ => True end.
Proof. intros [X t m E C|r b H L|E]; auto. Qed.
Lemma raw_live s la d : raw g p s la d -> match d with Shift _ | Reduce _ | Accept => True | _ => False end.
Proof. intros [X t m E C|r b H L|E]; exact I. Qed.
Lemma one_shift s la t t' : s < ns -> raw g p s la (Shift t) -> raw g p s la (Shift t') -> t = t'.
Proof.
  intros Hs R R'. destruct (kind_or g la) as [K|K].
  - pose proof (shift_nonterm g W p s la t R K) as E. pose proof (shift_nonterm g W p s la t' R' K) as E'. eapply (au_fun g p A); eauto.
  - destruct (path_reach g p A s Hs) as [gamma P]. destruct (raw_offers g W p A gamma s la _ P K R) as (X & E & C & O); [exact I|]. destruct (raw_offers g W p A gamma s la _ P K R') as (X' & E' & C' & O'); [exact I|].
    destruct (Nat.eq_dec X X') as [->|N]; [eapply (au_fun g p A); eauto|]. exfalso. apply NC. exists gamma, la. left. exists (MShift X), (MShift X'). splits; auto; [congruence|exact I].
Qed.
Lemma two_reduce s la r q : s < ns -> raw g p s la (Reduce r) -> raw g p s la (Reduce q) -> r = q \/
  exists gamma, offers g gamma la (MReduce r) /\ offers g gamma la (MReduce q) /\ r_prec (grule g r) <> None /\ r_prec (grule g q) <> None.
Proof.
  intros Hs R R'. destruct (Nat.eq_dec r q) as [E|N]; [now left|right]. destruct (path_reach g p A s Hs) as [gamma P].
  pose proof (reduce_term g W p s la r R) as K. pose proof (raw_offers g W p A gamma s la _ P K R I) as O. pose proof (raw_offers g W p A gamma s la _ P K R' I) as O'.
  exists gamma. splits; auto; intros E; apply NC; exists gamma, la; left; exists (MReduce r), (MReduce q); splits; auto; try congruence; cbn; auto.
Qed.

Definition is_acc (a : action) : bool := match a_det a with Accept => true | _ => false end.
Lemma filter_accept l : Forall (fun a : action => a_la a <> g_start g /\ match a_det a with Shift _ | Reduce _ => True | _ => False end) l ->
  filter is_acc l = [].
Proof. induction 1 as [|a l [_ H] _ IH]; cbn; auto. unfold is_acc at 1. destruct (a_det a); auto; contradiction. Qed.

(** The sorted list of raw actions, written once each *)
Lemma raw_once s : s < ns -> exists st1, nth_error (raw_actions g p) s = Some st1 /\ sorted_by action_less (ssort action_less (s_actions st1)) /\
  NoDup (ssort action_less (s_actions st1)) /\ forall la d, In (mkAct la d) (ssort action_less (s_actions st1)) <-> raw g p s la d.
Proof.
  intros Hs. destruct (raw_list g W p A s Hs) as (st1 & l0 & H1 & El & HI & HS & HR & HSh). subst l0. exists st1. splits; auto. apply before_nodup. intros [la d] HB.
  destruct (before_in _ _ _ HB) as [HM _]. apply HI in HM. pose proof (raw_live _ _ _ HM) as HL. destruct d as [t| |r| | | | | | |]; try contradiction.
  - apply HSh in HB as (X & ms & E & K & C). apply NC. destruct (path_reach g p A s Hs) as [gamma P]. exists gamma, la. right. exists X, ms. splits; auto.
    destruct (au_edge g p A _ _ _ E) as (_ & k & Hi & HX). destruct (nth_kpost g k X) as (ru & al & R1 & R2 & _); auto; [eapply (au_valid g p A); eauto|].
    eapply of_shift; eauto; [eapply (item_lr0 g p A); eauto|]. right. exists ms. split; auto. apply (count_occ_In Nat.eq_dec). lia.
  - destruct (raw_actions_spec g W p A s st1 H1) as (st & Hst & _ & _ & _ & l1 & El & HF & ND).
    apply (filter_before is_acc) in HB; auto. apply before_two in HB.
    pose proof (Permutation_length (filter_perm is_acc _ _ (ssort_perm action_less (s_actions st1)))) as EL. rewrite El, filter_app, (filter_accept l1 HF) in EL. rewrite El in HB. rewrite EL in HB. destruct (s =? 0); cbn in HB; lia.
  - now apply HR in HB.
Qed.
Lemma acts_eq p3 m s st1 : find_actions g p = GOk (p3, m) -> nth_error (raw_actions g p) s = Some st1 ->
  acts p3 s = fst (resolve_all g (List.length (ssort action_less (s_actions st1))) (ssort action_less (s_actions st1)) 0).
Proof.
  unfold find_actions. intros H H1. destruct (any_panics _); [discriminate|]. destruct (forallb _ _); [|discriminate]. injection H as <- _. unfold acts, pstate. cbn [p_states]. rewrite (nth_error_nth _ s dummy_state (x := fst (resolve_state g st1))).
  - unfold resolve_state. destruct (resolve_all _ _ _ _); reflexivity.
  - now rewrite map_map, nth_error_map, H1.
Qed.
End Raw.

(** ** The lists of the two automata *)
Section Lists.
Context (n : nat) (g1 g2 : grammar) (phi psi : nat -> nat) (RD : reord n g1 g2 phi psi) (W1 : wf_grammar g1) (W2 : wf_grammar g2).
Context (p1 p2 : pst) (A1 : Aut g1 p1) (A2 : Aut g2 p2) (sig tau : nat -> nat) (PD : paired g1 g2 p1 p2 phi sig tau).
Context (NC : ~ conflicting g2).
Notation rn := (ren_det phi sig).
Notation ra := (ren_act phi sig).
Notation ns := (List.length (p_states p2)).
Let ST := pd_sig _ _ _ _ _ _ _ PD.

Lemma raw_rn s la d : s < ns -> raw g2 p2 s la d <-> raw g1 p1 (sig s) la (rn d).
Proof.
  intros Hs. split.
  - intros [X t m E C|r b H L|E]; cbn.
    + econstructor; [apply (pd_edge _ _ _ _ _ _ _ PD); eauto|]. unfold covers in *. now rewrite <- (rd_kind _ _ _ _ _ RD).
    + constructor; [|now rewrite <- (rd_nterm _ _ _ _ _ RD)]. unfold rlen. rewrite <- (rd_grule _ _ _ _ _ RD). now apply (pd_look _ _ _ _ _ _ _ PD).
    + subst s. rewrite (rd_start _ _ _ _ _ RD). constructor. apply (pd_0 _ _ _ _ _ _ _ PD).
  - intros H. remember (rn d) as d1 eqn:Ed. destruct H as [X t m E C|r b L Lb|E]; destruct d; try discriminate; cbn in *.
    + injection Ed as ->. econstructor; [apply (pd_edge _ _ _ _ _ _ _ PD); eauto|]. unfold covers in *. now rewrite (rd_kind _ _ _ _ _ RD).
    + injection Ed as ->. constructor; [|now rewrite (rd_nterm _ _ _ _ _ RD)]. unfold rlen. rewrite (rd_grule _ _ _ _ _ RD). now apply (pd_look _ _ _ _ _ _ _ PD).
    + rewrite <- (rd_start _ _ _ _ _ RD). constructor. rewrite <- (ST s), E. rewrite <- (pd_0 _ _ _ _ _ _ _ PD) at 1. apply ST.
Qed.
Lemma raw_surj s la d : raw g1 p1 s la d -> exists d', d = rn d'.
Proof.
  intros [X t m E C|r b H L|E].
  - exists (Shift (tau t)). cbn. now rewrite (pd_tau _ _ _ _ _ _ _ PD).
  - exists (Reduce (psi r)). cbn. now rewrite (rd_psi _ _ _ _ _ RD).
  - now exists Accept.
Qed.

(** The order of two actions of a state is the same. *)
Lemma ra_less s x y : s < ns -> raw g2 p2 s (a_la x) (a_det x) -> raw g2 p2 s (a_la y) (a_det y) -> action_less (ra x) (ra y) = action_less x y.
Proof.
  intros Hs Rx Ry. unfold action_less. cbn [a_la a_det ren_act]. destruct (Nat.eqb_spec (a_la x) (a_la y)) as [E|N]; [|reflexivity]. f_equal. cbn [andb].
  destruct x as [la d], y as [lb e]. cbn in *. subst lb. pose proof (raw_live _ _ _ _ _ Rx) as Lx. pose proof (raw_live _ _ _ _ _ Ry) as Ly.
  destruct d as [t| |r| | | | | | |]; try contradiction; destruct e as [t'| |q| | | | | | |]; try contradiction; cbn [detail_less ren_det]; auto.
  - rewrite (one_shift g2 W2 p2 A2 NC s la t t' Hs Rx Ry). now rewrite !Nat.ltb_irrefl.
  - destruct (two_reduce g2 W2 p2 A2 NC s la r q Hs Rx Ry) as [->|(gamma & O1 & O2 & P1 & P2)]; [now rewrite !Nat.ltb_irrefl|].
    pose proof (same_order _ _ _ _ _ RD gamma la r q O1 O2 P1 P2) as HO. destruct (Nat.ltb_spec (phi r) (phi q)), (Nat.ltb_spec r q); auto; lia.
Qed.
Lemma raw_sep s x y : raw g2 p2 s (a_la x) (a_det x) -> raw g2 p2 s (a_la y) (a_det y) -> action_less x y = false -> action_less y x = false -> x = y.
Proof.
  intros Rx Ry Hxy Hyx. unfold action_less in *. destruct x as [la d], y as [lb e]. cbn in *. apply orb_false_iff in Hxy as [A3 B], Hyx as [C D]. apply Nat.ltb_ge in A3, C. assert (la = lb) by lia. subst lb. rewrite Nat.eqb_refl in B, D. cbn in B, D. f_equal.
  pose proof (raw_live _ _ _ _ _ Rx) as Lx. pose proof (raw_live _ _ _ _ _ Ry) as Ly. destruct d as [t| |r| | | | | | |]; try contradiction; destruct e as [t'| |q| | | | | | |]; try contradiction; cbn in *; auto; try discriminate; apply Nat.ltb_ge in B, D; f_equal; lia.
Qed.

Lemma conflicts_no : ~ conflicting g1.
Proof. intros H. apply NC. eapply rd_conflicting; [apply (rd_sym _ _ _ _ _ RD)|auto]. Qed.

(** Before the default reductions *)
Theorem acts_same p31 p32 m1 m2 s : find_actions g1 p1 = GOk (p31, m1) -> find_actions g2 p2 = GOk (p32, m2) -> s < ns -> acts p31 (sig s) = map ra (acts p32 s).
Proof.
  intros F1 F2 Hs. destruct (raw_once g2 W2 p2 A2 NC s Hs) as (st2 & N2 & S2 & D2 & I2).
  destruct (raw_once g1 W1 p1 A1 conflicts_no (sig s)) as (st1 & N1 & S1 & D1 & I1); [now apply (pd_lt _ _ _ _ _ _ _ PD)|].
  rewrite (acts_eq g1 p1 p31 m1 (sig s) st1 F1 N1), (acts_eq g2 p2 p32 m2 s st2 F2 N2).
  set (l1 := ssort action_less (s_actions st1)) in *. set (l2 := ssort action_less (s_actions st2)) in *.
  assert (HL : forall x y, In x l2 -> In y l2 -> action_less (ra x) (ra y) = action_less x y).
  { intros [la d] [lb e] Hx Hy. apply (ra_less s); auto; now apply I2. }
  assert (E : l1 = map ra l2).
  { symmetry. apply (sorted_unique action_less); auto.
    - now apply (sorted_map action_less).
    - apply FinFun.Injective_map_NoDup; auto. intros x y. apply (ra_inj n g1 g2 phi psi RD sig tau ST).
    - intros [la d]. rewrite (I1 la d), in_map_iff. split.
      + intros ([lb e] & E & Hin). unfold ren_act in E. cbn in E. injection E as <- <-. apply raw_rn; auto. now apply I2.
      + intros H. destruct (raw_surj _ _ _ H) as [d' ->]. exists (mkAct la d'). split; auto. apply I2. now apply raw_rn.
    - intros x y Hx Hy. apply in_map_iff in Hx as (x' & <- & Hx), Hy as (y' & <- & Hy). rewrite !HL by auto. intros H1 H2. f_equal. destruct x', y'. apply (raw_sep s); auto; now apply I2. }
  rewrite E, map_length, (ra_all n g1 g2 phi psi RD sig). reflexivity.
Qed.

(** After them *)
Lemma ra_less' s l x y : s < ns -> (forall z, In z l -> ActFacts.live (a_det z) -> raw g2 p2 s (a_la z) (a_det z)) -> forall ign r,
  In x (make_default g2 ign r l) -> In y (make_default g2 ign r l) -> action_less (ra x) (ra y) = action_less x y.
Proof.
  intros Hs HR ign r Hx Hy. unfold action_less. cbn [a_la a_det ren_act]. destruct (Nat.eqb_spec (a_la x) (a_la y)) as [E|N]; [|reflexivity]. f_equal. cbn [andb].
  assert (Dn : forall z, In z (make_default g2 ign r l) -> ActFacts.live (a_det z) -> raw g2 p2 s (a_la z) (a_det z) \/ z = mkAct (g_dflt g2) (Reduce r)).
  { intros z Hz Lz. destruct (default_from g2 ign r l z Hz) as [H|[H|H]]; auto. rewrite H in Lz. contradiction. }
  destruct x as [la d], y as [lb e]. cbn in E. subst lb. cbn [a_det].
  assert (SS : forall t t', d = Shift t -> e = Shift t' -> t = t').
  { intros t t' -> ->. destruct (Dn _ Hx I) as [R|R]; [|discriminate]. destruct (Dn _ Hy I) as [R'|R']; [|discriminate]. now apply (one_shift g2 W2 p2 A2 NC s la). }
  assert (RR : forall r q, d = Reduce r -> e = Reduce q -> (phi r <? phi q) = (r <? q)).
  { intros r' q -> ->. pose proof (wg_dflt_range g2 W2) as WD. destruct (Dn _ Hx I) as [R|R], (Dn _ Hy I) as [R'|R']; cbn [a_la a_det] in *.
    - pose proof (ra_less s (mkAct la (Reduce r')) (mkAct la (Reduce q)) Hs R R') as HL. unfold action_less in HL. cbn [a_la a_det ren_act ren_det detail_less] in HL. now rewrite Nat.ltb_irrefl, Nat.eqb_refl in HL.
    - injection R' as -> ->. apply raw_term in R. lia.
    - injection R as -> ->. apply raw_term in R'. lia.
    - injection R as -> ->. injection R' as ->. now rewrite !Nat.ltb_irrefl. }
  destruct d as [t| |r'| | | | | | |], e as [t'| |q| | | | | | |]; cbn [detail_less ren_det]; auto.
  rewrite (SS t t' eq_refl eq_refl). now rewrite !Nat.ltb_irrefl.
Qed.

Lemma compress_same k k' st1 st2 st1' st2' s : s < ns -> (forall z, In z (s_actions st2) -> ActFacts.live (a_det z) -> raw g2 p2 s (a_la z) (a_det z)) ->
  s_actions st1 = map ra (s_actions st2) -> compress_state k g1 st1 = GOk st1' -> compress_state k' g2 st2 = GOk st2' -> s_actions st1' = map ra (s_actions st2').
Proof.
  intros Hs HR E H1 H2. unfold compress_state in *. apply gbind_ok in H1 as (ig1 & I1 & H1). apply gbind_ok in H2 as (ig2 & I2 & H2). rewrite E in *.
  assert (ig1 = ig2). { destruct (ra_ignored n g1 g2 phi psi RD sig tau ST k k' (s_actions st2)) as [F|[F|F]]; congruence. } subst ig2.
  change (mkBest 0 None false) with (ren_best phi (mkBest 0 None false)) in H1. rewrite (ra_best n g1 g2 phi psi RD sig) in H1.
  set (b := find_best g2 ig1 (s_actions st2) (mkBest 0 None false)) in *. cbn [b_rule b_wild ren_best] in H1. destruct (b_rule b) as [rb|]; cbn [option_map] in H1.
  - destruct (b_wild b); injection H1 as <-; injection H2 as <-; auto. cbn [s_actions st_set_actions]. rewrite (ra_default n g1 g2 phi psi RD sig). apply ssort_map. intros x y. eapply ra_less'; eauto.
  - injection H1 as <-. injection H2 as <-. auto.
Qed.

Theorem comp_same p31 p32 p41 p42 k k' s : find_actions g1 p1 = GOk (p31, 0) -> find_actions g2 p2 = GOk (p32, 0) -> compress_tables k g1 p31 = GOk p41 -> compress_tables k' g2 p32 = GOk p42 ->
  s < ns -> acts p41 (sig s) = map ra (acts p42 s).
Proof.
  intros F1 F2 C1 C2 Hs. pose proof (acts_same _ _ _ _ _ F1 F2 Hs) as E. assert (Hs1 : sig s < List.length (p_states p1)) by now apply (pd_lt _ _ _ _ _ _ _ PD).
  destruct (find_actions_spec g1 W1 p1 A1 _ F1) as (_ & L1 & _ & _). destruct (find_actions_spec g2 W2 p2 A2 _ F2) as (_ & L2 & S2 & _).
  destruct (compress_tables_spec _ _ _ _ C1) as (_ & _ & Q1). destruct (compress_tables_spec _ _ _ _ C2) as (_ & _ & Q2).
  unfold acts in *. eapply (compress_same k k' (pstate p31 (sig s)) (pstate p32 s)); eauto; [|apply Q1; lia|apply Q2; lia].
  intros [la d] Hz Lz. eapply settled_raw; [now apply S2|exact Hz|exact Lz].
Qed.
End Lists.
