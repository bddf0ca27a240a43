(** When the packed table is faithful: the only rows that [insert_action_set] can put on top of
    others are those with a single lookahead [m > 0], and it does so only when the last [m]
    entries of the table are rows of their own for end of input.  mod.rs 342-481, 2283-2339. *)
From Coq Require Import Permutation.
From Verif Require Import Base Syntax BaseFacts FrontEnd First States Actions Tables Runtime Spec PackFacts WfGrammar AutoFacts ActFacts CompFacts GroupFacts TabFacts LookFacts PipeFacts.

Definition firm (a : action) : bool := emits (a_det a).
Definition slot (g : grammar) (a : action) : bool := emits (a_det a) && negb (a_la a =? g_dflt g).

Lemma perm_filter {A} (f : A -> bool) l l' : Permutation l l' -> Permutation (filter f l) (filter f l').
Proof.
  induction 1; cbn; auto.
  - destruct (f x); auto.
  - destruct (f x), (f y); auto. constructor.
  - eapply Permutation_trans; eauto.
Qed.
Lemma filter_two {A} (f : A -> bool) (l : list A) : forall i j a b, i < j -> nth_error l i = Some a -> nth_error l j = Some b -> f a = true -> f b = true -> 2 <= List.length (filter f l).
Proof.
  induction l as [|x l IH]; intros [|i] [|j] a b Hij Ha Hb Fa Fb; try discriminate; try lia; cbn in Ha, Hb |- *.
  - injection Ha as ->. rewrite Fa. cbn. assert (In b (filter f l)) by (apply filter_In; split; auto; eapply nth_error_In; eauto). destruct (filter f l); [contradiction|cbn; lia].
  - assert (2 <= List.length (filter f l)) by (eapply (IH i j); eauto; lia). destruct (f x); cbn; lia.
Qed.
Lemma once_nodup {A} (f : A -> bool) (l : list A) : (forall i j a, i < j -> nth_error l i = Some a -> nth_error l j = Some a -> f a = true -> False) -> NoDup (filter f l).
Proof.
  induction l as [|x l IH]; intros H; cbn; [constructor|].
  assert (IH' : NoDup (filter f l)) by (apply IH; intros i j a Hij Ha Hb; apply (H (S i) (S j) a); auto; lia).
  destruct (f x) eqn:E; auto. constructor; auto. intros Hin. apply filter_In in Hin as [Hin _]. apply In_nth_error in Hin as (j & Hj). apply (H 0 (S j) x); auto. lia.
Qed.

Section Nodup.
Context (g : grammar) (W : wf_grammar g) (p : pst) (A : Aut g p) (p3 : pst) (s : nat) (S3 : settled g p p3 s).

(** No action that is emitted occurs twice. *)
Lemma settled_once : NoDup (filter firm (acts p3 s)).
Proof.
  apply once_nodup. intros i j [la d] Hij Hi Hj Hf. destruct (Nat.eq_dec la (g_start g)) as [->|Hla].
  { eapply (se_accept g p p3 s S3 i j); eauto. }
  pose proof (se_nobad g p p3 s S3 i j _ _ Hij Hi Hj eq_refl) as NB. unfold firm in Hf. cbn in Hf, NB.
  destruct d; try discriminate; cbn in NB; auto.
  - assert (HR : exists d0, raw g p s la d0 /\ dstep d0 Accept) by (apply (settled_src g p p3 s S3); eapply nth_error_In; eauto).
    destruct HR as (d0 & HR & D). inversion D; subst. inversion HR; congruence.
  - destruct (settled_cands g p p3 s S3 la Hla) as (ot & rs & [_ Hs] & _ & _ & HG).
    pose proof (resolve_all_spec g _ _ _ HG (sorted_la_sorted _ Hs)) as [F2 _].
    set (isE := fun a : action => match a_det a with Error => true | _ => false end).
    set (isS := fun a : action => match a_det a with Shift _ => true | Error => true | _ => false end).
    assert (H1 : List.length (filter isE (group la (acts p3 s))) <= List.length (filter isS (cands la ot rs))).
    { clear -F2. induction F2 as [|x y l l' [_ D] F2 IH]; cbn; auto. destruct x as [l1 d1], y as [l2 d2]. unfold isE at 1, isS at 1. cbn [a_det] in *. destruct D as [d| | |]; cbn; try lia. destruct d; cbn; lia. }
    assert (H2 : List.length (filter isS (cands la ot rs)) <= 1).
    { unfold cands. rewrite filter_app, app_length. assert (E : filter isS (map (rd la) rs) = []) by (clear; induction rs; cbn; auto). rewrite E. destruct ot; cbn; lia. }
    assert (H3 : 2 <= List.length (filter isE (group la (acts p3 s)))); [|lia].
    unfold group. rewrite filter_filter_comm.
    assert (E : filter (fun a : action => a_la a =? la) (filter isE (acts p3 s)) = filter (fun a => isE a && (a_la a =? la)) (acts p3 s)).
    { clear. induction (acts p3 s) as [|x l IH]; cbn; auto. destruct (isE x); cbn; rewrite ?IH; auto. }
    rewrite E. eapply filter_two; eauto; cbn; now rewrite Nat.eqb_refl.
Qed.

Lemma make_default_once ign r : forall l, NoDup (filter (slot g) l) ->
  NoDup (filter (slot g) (make_default g ign r l)) /\ incl (filter (slot g) (make_default g ign r l)) (filter (slot g) l).
Proof.
  assert (HU : forall l, NoDup (filter (slot g) l) -> NoDup (filter (slot g) (map (unuse ign r) l)) /\ incl (filter (slot g) (map (unuse ign r) l)) (filter (slot g) l)).
  { induction l as [|a l IH]; cbn; intros Hn; [split; [constructor|intros ? []]|].
    assert (Hn' : NoDup (filter (slot g) l)) by (destruct (slot g a); auto; now inversion Hn). destruct (IH Hn') as [N I].
    assert (EU : unuse ign r a = a \/ slot g (unuse ign r a) = false) by (unfold unuse; destruct (smem _ _); auto; destruct (is_reduce _ _); auto).
    destruct EU as [->|EU]; [|rewrite EU; split; auto; intros x Hx; apply I in Hx; destruct (slot g a); auto; now right].
    destruct (slot g a); auto. inversion Hn; subst. split; [constructor; auto|]. intros x [->|Hx]; [now left|right; auto]. }
  induction l as [|a l IH]; cbn; intros Hn; [split; [constructor|intros ? []]|].
  assert (Hn' : NoDup (filter (slot g) l)) by (destruct (slot g a); auto; now inversion Hn).
  destruct (_ && _).
  - cbn. assert (E : slot g (mkAct (g_dflt g) (a_det a)) = false) by (unfold slot; cbn; now rewrite Nat.eqb_refl, andb_false_r). rewrite E. destruct (HU l Hn') as [N I]. split; auto. intros x Hx. apply I in Hx. destruct (slot g a); auto. now right.
  - destruct (IH Hn') as [N I]. cbn. destruct (slot g a); auto. inversion Hn; subst. split; [constructor; auto|]. intros x [->|Hx]; [now left|right; auto].
Qed.
Lemma slot_firm l : NoDup (filter firm l) -> NoDup (filter (slot g) l).
Proof.
  intros H. assert (E : filter (slot g) l = filter (fun a => negb (a_la a =? g_dflt g)) (filter firm l)).
  { clear. induction l as [|a l IH]; cbn; auto. unfold slot at 1. fold (firm a). destruct (firm a); cbn; rewrite ?IH; auto. }
  rewrite E. now apply NoDup_filter.
Qed.
Lemma compress_once fuel st : compress_state fuel g (pstate p3 s) = GOk st -> NoDup (filter (slot g) (s_actions st)).
Proof.
  intros H. pose proof (slot_firm _ settled_once) as HN. unfold acts in HN. unfold compress_state in H. apply gbind_ok in H as (ign & _ & H).
  destruct (b_rule _); [|now injection H as <-]. destruct (b_wild _); injection H as <-; auto. cbn.
  eapply Permutation_NoDup; [apply perm_filter, Permutation_sym, ssort_perm|]. now apply make_default_once.
Qed.
End Nodup.

Section Rows.
Context (g : grammar) (p : pst).
Notation ns := (List.length (p_states p)).
Notation nr := (List.length (g_rules g)).
Notation num := (state_num g p).
(** What the rows of the table satisfy *)
Record rows_fine : Prop := {
  rf_sort : forall s, s < ns -> la_sorted (s_actions (pstate p s));
  rf_once : forall s, s < ns -> NoDup (filter (slot g) (s_actions (pstate p s)));
  rf_one : forall s la d d', s < ns -> In (mkAct la d) (s_actions (pstate p s)) -> In (mkAct la d') (s_actions (pstate p s)) -> la <> g_dflt g ->
    emits d = true -> emits d' = true -> code ns nr num d = code ns nr num d' -> d = d';
  rf_term : 0 < g_nterm g <= g_dflt g }.
Hypothesis RF : rows_fine.

Lemma set_eq st w : action_set g ns nr num st w = map (fun a => (a_la a, code ns nr num (a_det a))) (filter (fun a => keep g w (a_la a)) (filter firm (s_actions st))).
Proof.
  unfold action_set. induction (s_actions st) as [|a l IH]; auto. cbn [flat_map filter]. rewrite IH, compute_emits. cbv zeta. fold (keep g w (a_la a)). fold (firm a).
  destruct (firm a); cbn [filter]; destruct (keep g w (a_la a)); auto.
Qed.
Lemma nodup_map {B C} (f : B -> C) l : NoDup l -> (forall x y, In x l -> In y l -> f x = f y -> x = y) -> NoDup (map f l).
Proof.
  induction 1 as [|x l Hx Hn IH]; intros HI; cbn; constructor.
  - intros Hin. apply in_map_iff in Hin as (y & E & Hy). apply HI in E; [congruence|now right|now left].
  - apply IH. intros a b Ha Hb. apply HI; now right.
Qed.
Lemma keep_dflt w : keep g w (g_dflt g) = false.
Proof. unfold keep. pose proof (rf_term RF). destruct w; [apply Nat.ltb_ge; lia|]. rewrite Nat.eqb_refl. apply andb_false_r. Qed.

Lemma aset_once s w : s < ns -> NoDup (aset g p s w).
Proof.
  intros Hs. unfold aset. rewrite set_eq. apply nodup_map.
  - assert (E : filter (fun a => keep g w (a_la a)) (filter firm (s_actions (pstate p s))) = filter (fun a => keep g w (a_la a)) (filter (slot g) (s_actions (pstate p s)))).
    { induction (s_actions (pstate p s)) as [|a l IH]; cbn; auto. unfold slot at 1. fold (firm a). destruct (firm a); cbn; auto.
      destruct (Nat.eqb_spec (a_la a) (g_dflt g)) as [Ea|]; cbn; rewrite IH; auto. rewrite Ea, keep_dflt. auto. }
    rewrite E. apply NoDup_filter, (rf_once RF); auto.
  - intros [la d] [la' d'] Hx Hy E. apply filter_In in Hx as [Hx Kx], Hy as [Hy _]. apply filter_In in Hx as [Hx Fx], Hy as [Hy Fy]. cbn in *. injection E as -> Ec.
    f_equal. eapply (rf_one RF s la'); eauto. intros ->. rewrite keep_dflt in Kx. discriminate.
Qed.
Lemma aset_sorted s w : s < ns -> StronglySorted (fun x y => fst x <= fst y) (aset g p s w).
Proof. intros Hs. apply action_set_sorted, (rf_sort RF); auto. Qed.
Lemma sorted_last (l : list (nat * nat)) : StronglySorted (fun x y => fst x <= fst y) l -> Forall (fun e => fst e <= fst (last l (0, 0))) l.
Proof.
  induction 1 as [|x l H IH HF]; constructor.
  - destruct l as [|y l]; [cbn; lia|]. rewrite Forall_forall in HF. change (fst x <= fst (last (y :: l) (0, 0))). apply HF, last_in. discriminate.
  - destruct l as [|y l]; [constructor|]. exact IH.
Qed.

(** The only symbol of the row is [m]. *)
Definition sole (m : nat) (row : list (nat * nat)) : bool := match row with [] => false | _ => forallb (fun e => fst e =? m) row end.
(** The number of states whose only action on a token is on end of input *)
Definition eoi_rows : nat := List.length (filter (fun s => sole 0 (aset g p s true)) (seq 0 ns)).
(** Every row with a single symbol [m] has [m = 0], end of input, or [m > eoi_rows]. *)
Definition roomy : Prop := forall s w m, s < ns -> sole m (aset g p s w) = true -> m = 0 \/ eoi_rows < m.

Lemma sole_iff m row : sole m row = true <-> row <> [] /\ forall e, In e row -> fst e = m.
Proof.
  unfold sole. destruct row as [|e l]; [split; [discriminate|intros [H _]; congruence]|]. rewrite forallb_forall. split.
  - intros H. split; [discriminate|]. intros x Hx. apply Nat.eqb_eq. auto.
  - intros [_ H] x Hx. apply Nat.eqb_eq. auto.
Qed.

Lemma tail_eoi done k m : pack_inv g p done k -> tail_zero (k_tab k) m -> m <= eoi_rows.
Proof.
  intros PI [Lm HT]. pose proof (pi_tab g p _ _ PI) as [T1 T2]. set (len := List.length (k_tab k)) in *.
  assert (HS : forall d, 1 <= d <= m -> exists s, s < ns /\ sole 0 (aset g p s true) = true /\ ofs_of k s true = Some (Z.of_nat (len - d))).
  { intros d Hd. destruct (HT d Hd) as (a & Hc). destruct (T1 _ _ _ Hc) as (set & o & (s & w & Hs & Ho & ->) & Hk & Hl).
    assert (w = true).
    { apply last_assoc_in, action_set_in in Hl as (d0 & _ & Hk' & _). unfold keep in Hk'. destruct w; auto. pose proof (rf_term RF). destruct (Nat.ltb_spec 0 (g_nterm g)); [discriminate|lia]. }
    subst w. exists s. splits; auto; [|rewrite Ho; f_equal; lia]. apply sole_iff. split; [intros E; apply last_assoc_in in Hl; now rewrite E in Hl|].
    intros [la x] He. destruct (last_assoc (aset g p s true) la) as [y|] eqn:Ey.
    - destruct (T2 (aset g p s true) o la y) as (k' & Hk' & Hc'); [now exists s, true|auto|]. pose proof (cell_bound _ _ _ Hc') as Hb. fold len in Hb.
      destruct (Nat.eq_dec la 0) as [->|NE]; auto. exfalso. destruct (HT (len - k')) as (y' & Hy'); [lia|]. fold len in Hy'. replace (len - (len - k')) with k' in Hy' by lia. congruence.
    - rewrite last_assoc_none in Ey. now apply Ey in He. }
  assert (HL : forall m', m' <= m -> exists l, NoDup l /\ List.length l = m' /\ forall s, In s l -> s < ns /\ sole 0 (aset g p s true) = true /\ exists d, 1 <= d <= m' /\ ofs_of k s true = Some (Z.of_nat (len - d))).
  { induction m' as [|m' IH]; intros Hm; [exists []; splits; auto; [constructor|intros ? []]|].
    destruct IH as (l & N & L & Hl); [lia|]. destruct (HS (S m')) as (s & Hs & Hz & Ho); [lia|]. exists (s :: l). splits; [|cbn; lia|].
    - constructor; auto. intros Hin. destruct (Hl s Hin) as (_ & _ & d & Hd & Ho'). rewrite Ho in Ho'. injection Ho' as E. lia.
    - intros s' [<-|Hin]; [splits; auto; exists (S m'); split; [lia|auto]|]. destruct (Hl s' Hin) as (? & ? & d & ? & ?). splits; auto. exists d. split; [lia|auto]. }
  destruct (HL m (le_n _)) as (l & N & <- & Hl). unfold eoi_rows. apply NoDup_incl_length; auto. intros s Hin. destruct (Hl s Hin) as (? & ? & _). apply filter_In. split; auto. apply in_seq. lia.
Qed.

Definition filled (k : packing) : Prop := forall s w, s < ns -> ofs_of k s w <> None -> aset g p s w <> [].
Lemma pack_one_apart done k s w n k' : roomy -> filled k -> s < ns -> (forall n', ~ In (s, w, n') done) -> pack_inv g p done k -> offsets_ok (placed_in g p k) ->
  pack_one g ns nr num (p_states p) k (s, w, n) = GOk k' -> offsets_ok (placed_in g p k') /\ filled k'.
Proof.
  intros HR HF Hs Hnew PI OK H. unfold pack_one in H. destruct (Nat.eqb_spec n 0) as [->|Hn0]; [now injection H as <-|].
  apply gbind_ok in H as ([ofs tab] & Hi & H). change (nth s (p_states p) dummy_state) with (pstate p s) in Hi. fold (aset g p s w) in Hi.
  assert (Hb : forall s' w', s' < ns -> ofs_of k' s' w' = if (s' =? s) && Bool.eqb w' w then Some ofs else ofs_of k s' w').
  { intros s' w' Hs'. pose proof (pi_len g p _ _ PI) as [L1 L2]. unfold ofs_of. destruct w; inversion H; subst k'; cbn [k_tofs k_nofs]; destruct w'; cbn [Bool.eqb];
      rewrite ?andb_false_r, ?andb_true_r; auto; rewrite nth_upd, ?L1, ?L2; destruct (Nat.eqb_spec s' s) as [->|];
      destruct (Nat.ltb_spec s ns); try lia; rewrite ?Nat.eqb_refl; auto; destruct (Nat.eqb_spec s s'); try congruence; auto. }
  assert (Hne : aset g p s w <> []) by (intros E; rewrite E in Hi; discriminate).
  pose proof (aset_sorted s w Hs) as SS.
  assert (OK' : offsets_ok (fun set o => placed_in g p k set o \/ (set = aset g p s w /\ o = ofs))).
  { eapply insert_offsets_ok; eauto.
    - apply (pi_tab g p _ _ PI).
    - intros set o (s' & w' & Hs' & Ho & ->). apply HF; congruence.
    - now apply sorted_hd.
    - now apply sorted_last.
    - now apply aset_once.
    - unfold has_room. destruct (Nat.lt_ge_cases (fst (hd (0, 0) (aset g p s w))) (fst (last (aset g p s w) (0, 0)))) as [?|Hge]; auto. right.
      set (m := fst (hd (0, 0) (aset g p s w))) in *. destruct (HR s w m Hs) as [E|E]; [|auto|].
      + apply sole_iff. split; auto. pose proof (sorted_hd _ SS) as F1. pose proof (sorted_last _ SS) as F2. rewrite Forall_forall in F1, F2.
        intros e He. specialize (F1 e He). specialize (F2 e He). fold m in F1. lia.
      + right. intros HT. pose proof (tail_eoi _ _ _ PI HT). lia. }
  split.
  - intros s1 s2 o (i & wi & Hi' & Oi & ->) (j & wj & Hj' & Oj & ->). apply (OK' _ _ o).
    + rewrite Hb in Oi by auto. destruct (Nat.eqb_spec i s) as [->|]; cbn in Oi; [destruct (Bool.eqb_spec wi w) as [->|]; cbn in Oi|]; [right; split; congruence|left; now exists s, wi|left; now exists i, wi].
    + rewrite Hb in Oj by auto. destruct (Nat.eqb_spec j s) as [->|]; cbn in Oj; [destruct (Bool.eqb_spec wj w) as [->|]; cbn in Oj|]; [right; split; congruence|left; now exists s, wj|left; now exists j, wj].
  - intros s' w' Hs'. rewrite Hb by auto. destruct (Nat.eqb_spec s' s) as [->|]; cbn; [|apply HF; auto]. destruct (Bool.eqb_spec w' w) as [->|]; auto.
Qed.

Theorem roomy_apart k : roomy -> pack_states g p = GOk k -> packing_ok g p k.
Proof.
  intros HR H. unfold pack_states, pack_all in H.
  assert (HG : forall l done k0 k1, gfold (pack_one g ns nr num (p_states p)) l k0 = GOk k1 ->
    (forall s w n, In (s, w, n) l -> s < ns) -> NoDup (map fst (done ++ l)) -> pack_inv g p done k0 -> offsets_ok (placed_in g p k0) -> filled k0 -> offsets_ok (placed_in g p k1)).
  { induction l as [|[[s w] n] l IH]; intros done k0 k1 Hg Hl Hn Hi OK HF; cbn [gfold] in Hg; [now injection Hg as <-|].
    apply gbind_ok in Hg as (k2 & H1 & H2). assert (Hs : s < ns) by (eapply Hl; now left).
    assert (Hnew : forall n', ~ In (s, w, n') done).
    { intros n' Hin. rewrite map_app in Hn. apply nodup_app_iff in Hn as (_ & _ & Hd). apply (Hd (s, w)); [apply in_map_iff; exists (s, w, n'); auto|now left]. }
    destruct (pack_one_apart _ _ _ _ _ _ HR HF Hs Hnew Hi OK H1) as [OK2 HF2].
    apply (IH (done ++ [(s, w, n)]) k2 k1 H2); auto.
    - intros; eapply Hl; right; eauto.
    - rewrite <- app_assoc. exact Hn.
    - eapply pack_one_inv; eauto. apply (rf_sort RF). }
  intros w s1 s2 o L1 L2 O1 O2. assert (HE : forall s w', ofs_of (mkPacking [] (repeat None ns) (repeat None ns) 0 0 0 0) s w' = None) by (intros s []; unfold ofs_of; cbn; apply nth_repeat).
  refine (HG _ [] _ _ H _ _ _ _ _ (aset g p s1 w) (aset g p s2 w) o (ex_intro _ s1 (ex_intro _ w (conj L1 (conj O1 eq_refl)))) (ex_intro _ s2 (ex_intro _ w (conj L2 (conj O2 eq_refl))))).
  - intros s w' n Hin. apply ax_sets_in in Hin as [Hin _]. now apply state_order_in in Hin.
  - apply ax_sets_nodup, state_order_nodup.
  - constructor.
    + cbn. now rewrite repeat_length.
    + split; [intros k' la a Hc; unfold cell in Hc; cbn in Hc; destruct k'; discriminate|]. intros s o' la a (s' & w' & _ & Ho & _). rewrite HE in Ho. discriminate.
    + intros s w' n _ [].
    + intros s w' _ _. apply HE.
    + intros s w' o' Ho. rewrite HE in Ho. discriminate.
    + intros []; cbn; lia.
    + intros []; cbn; lia.
  - intros x y o' (s' & w' & _ & Ho & _). rewrite HE in Ho. discriminate.
  - intros s w' _ Hc. rewrite HE in Hc. congruence.
Qed.
End Rows.

(** The rows of a built parser are fine. *)
Lemma built_rows fuel ord f b : ran fuel ord f b -> wf_grammar (bt_grammar b) -> rows_fine (bt_grammar b) (bt_comp b).
Proof.
  intros R W. pose proof (ran_aut _ _ _ _ R W) as A. destruct R as [_ _ _ H3 H4 _].
  destruct (find_actions_spec _ W _ A _ H3) as (_ & L3 & S3 & _). destruct (compress_tables_spec _ _ _ _ H4) as (_ & L4 & S4).
  assert (HC : forall s, s < List.length (p_states (bt_comp b)) -> settled (bt_grammar b) (bt_auto b) (bt_acts b) s /\ compress_state fuel (bt_grammar b) (pstate (bt_acts b) s) = GOk (pstate (bt_comp b) s)).
  { intros s Hs. split; [apply S3; congruence|apply S4; congruence]. }
  assert (HG : forall s, s < List.length (p_states (bt_comp b)) -> grouped (bt_grammar b) (acts (bt_acts b) s)) by (intros s Hs; eapply settled_grouped; eauto; now apply HC).
  assert (HD : forall s, s < List.length (p_states (bt_comp b)) -> exists dr, compressed (bt_grammar b) (acts (bt_acts b) s) (acts (bt_comp b) s) dr).
  { intros s Hs. destruct (HC s Hs) as [_ C]. destruct (compress_state_spec _ W _ _ _ (HG s Hs) C) as [_ ?]; auto. }
  constructor.
  - intros s Hs. destruct (HD s Hs) as (dr & D). apply (co_sorted _ _ _ _ D).
  - intros s Hs. destruct (HC s Hs) as [S C]. eapply compress_once; eauto.
  - intros s la d d' Hs Hd Hd' Hla E E' HCo. destruct (HD s Hs) as (dr & D). pose proof (co_mem _ _ _ _ D la d E Hd Hla) as M. pose proof (co_mem _ _ _ _ D la d' E' Hd' Hla) as M'.
    destruct (HC s Hs) as [S _].
    assert (HL : forall r, In (mkAct la (Reduce r)) (acts (bt_acts b) s) -> r < List.length (g_rules (bt_grammar b))).
    { intros r Hr. pose proof (settled_raw _ _ _ _ _ _ S Hr I) as Rr. inversion Rr as [|? ? (st & c & ? & ? & ? & _) _|]; subst. assert (Hit : item (bt_auto b) s (r, rlen (bt_grammar b) r)) by (exists st, c; auto). now destruct (au_valid _ _ A _ _ Hit). }
    assert (HQ : forall q, In (mkAct la (Shift q)) (acts (bt_acts b) s) -> q < List.length (p_states (bt_auto b))).
    { intros q Hq. pose proof (settled_raw _ _ _ _ _ _ S Hq I) as Rr. inversion Rr as [X q' m He Hc| |]; subst. now destruct (au_edge _ _ A _ _ _ He). }
    apply emits_cases in E as [E|E], E' as [E'|E'].
    + eapply (gr_live _ _ (HG s Hs)); eauto.
    + subst d'. exfalso. destruct d; try contradiction; cbn in HCo.
      * apply HQ in M. pose proof (state_num_lt (bt_grammar b) (bt_comp b) s0 ltac:(congruence)). lia.
      * lia.
      * apply HL in M. lia.
    + subst d. exfalso. destruct d'; try contradiction; cbn in HCo.
      * apply HQ in M'. pose proof (state_num_lt (bt_grammar b) (bt_comp b) s0 ltac:(congruence)). lia.
      * lia.
      * apply HL in M'. lia.
    + congruence.
  - pose proof (wg_dflt_range _ W). split; [apply (wg_nterm_pos _ W)|lia].
Qed.

(** ** What the generated arrays hold *)
(** Reading the arrays YY_ACTION and YY_LOOKAHEAD at offset [o], mod.rs 2814-2818 *)
Definition entry (t : tables) (o : Z) (la : nat) : option nat :=
  match zidx (o + Z.of_nat la) (List.length (t_action t)) with
  | None => None
  | Some i => if nth i (t_lookahead t) 0 =? la then Some (nth i (t_action t) 0) else None
  end.
(** The entry for token [la] in state number [n]: YY_SHIFT_OFST says where the row is, if there is
    one; mod.rs 2805-2818. *)
Definition token_entry (t : tables) (n la : nat) : option nat :=
  match nth_error (t_shift_ofst t) n with
  | None => None
  | Some o => if (o =? t_shift_min t - 1)%Z then None else entry t o la
  end.
(** The entry for non-terminal [la] in state number [n], mod.rs 2842-2851. *)
Definition goto_entry (t : tables) (n la : nat) : option nat :=
  match nth_error (t_reduce_ofst t) n with
  | None => None
  | Some o => if (o =? t_reduce_min t - 1)%Z then None else entry t o la
  end.
(** The number that stands for an action *)
Definition action_code (b : built) (d : detail) : nat :=
  match d with
  | Shift q => state_num (bt_grammar b) (bt_comp b) q
  | Reduce r => t_nstate (bt_tables b) + r
  | Error => t_nstate (bt_tables b) + t_nrule (bt_tables b)
  | Accept => t_nstate (bt_tables b) + t_nrule (bt_tables b) + 1
  | _ => 0
  end.

Lemma raw_bound g p : wf_grammar g -> flat g -> Aut g p -> forall s la d, raw g p s la d -> la <= g_dflt g.
Proof.
  intros W F A s la d R. pose proof (wg_dflt_range g W) as Hd. inversion R as [X q m E C|r b _ Hb|Hs]; subst; try lia.
  - destruct (edge_sym g W p A _ _ _ E) as (HX & _ & _ & _). unfold covers in C. destruct (kind_at g X) as [[| |ms]|] eqn:K; subst.
    + apply (wg_term g W) in K; auto. lia.
    + apply (wg_nonterm g W) in K. lia.
    + pose proof (F X ms la K C) as Ht. unfold is_term in Ht. pose proof (kind_at_range _ _ _ Ht). apply (wg_term g W) in Ht; auto. lia.
    + exfalso. rewrite (gsym_kind_at g X HX) in K. discriminate.
  - pose proof (proj1 (wg_start g W)) as Hk. apply (wg_nonterm g W) in Hk. lia.
Qed.

Lemma comp_fine fuel ord f b : ran fuel ord f b -> wf_grammar (bt_grammar b) -> flat (bt_grammar b) -> forall s, s < List.length (p_states (bt_comp b)) -> las_ok (bt_grammar b) (pstate (bt_comp b) s).
Proof.
  intros R W F. pose proof (ran_aut _ _ _ _ R W) as A. destruct R as [_ _ _ H3 H4 _].
  destruct (find_actions_spec _ W _ A _ H3) as (_ & L3 & S3 & _). destruct (compress_tables_spec _ _ _ _ H4) as (_ & L4 & S4).
  intros s Hs [la d] Hin He. cbn in *. destruct (S3 s) as [S _]; [congruence|]. pose proof (settled_grouped _ W _ A _ s S) as HG. destruct (compress_state_spec _ W _ _ _ HG (S4 s ltac:(congruence))) as [_ (dr & C)].
  destruct (Nat.eq_dec la (g_dflt (bt_grammar b))) as [->|Hn]; auto. apply (co_mem _ _ _ _ C _ _ He) in Hin; auto.
  destruct (settled_src _ _ _ _ S _ _ Hin) as (d0 & Hr & _). eapply raw_bound; eauto.
Qed.

Section Exact.
Context (fuel : nat) (ord : list (nat * nat) -> list (nat * nat)) (f : fe) (b : built) (R : ran fuel ord f b) (W : wf_grammar (bt_grammar b)) (F : flat (bt_grammar b)).
Notation g := (bt_grammar b). Notation p := (bt_comp b). Notation t := (bt_tables b).
Notation ns := (List.length (p_states p)). Notation nr := (List.length (g_rules g)). Notation num := (state_num g p).

Lemma code_eq k m syms dts d : generated g p t k m syms dts -> emits d = true -> action_code b d = code ns nr num d.
Proof. intros G He. unfold action_code. rewrite (gn_ns _ _ _ _ _ _ _ G), (gn_nr _ _ _ _ _ _ _ G). destruct d; try discriminate; reflexivity. Qed.

Lemma row_entry w s la k m syms dts : generated g p t k m syms dts -> s < ns -> keep g w la = true ->
  (if w then token_entry else goto_entry) t (num s) la = match ofs_of k s w with Some o => probe k o la | None => None end.
Proof.
  intros G Hs Hk. pose proof (rf_sort _ _ (built_rows _ _ _ _ R W)) as HS. pose proof (comp_fine _ _ _ _ R W F) as HL.
  assert (Hla : la <> g_dflt g) by (intros ->; rewrite (keep_dflt g p (built_rows _ _ _ _ R W)) in Hk; discriminate).
  pose proof (k_packed g W p t k m syms dts G HS HL) as PK. unfold ofs_of. destruct w.
  - unfold token_entry. pose proof (ofst_table_spec g p _ _ _ s (gn_shift _ _ _ _ _ _ _ G) Hs) as Hofs. destruct (nth s (k_tofs k) None) as [o|] eqn:Eo.
    + rewrite Hofs. assert (Hmin : (o =? t_shift_min t - 1)%Z = false) by (apply Z.eqb_neq; rewrite (gn_smin _ _ _ _ _ _ _ G); pose proof (pk_min g p k PK s true o Eo); cbn in *; lia).
      rewrite Hmin. exact (tab_probe g p t k m syms dts G o la Hla).
    + destruct Hofs as [-> | ->]; auto. now rewrite (gn_smin _ _ _ _ _ _ _ G), Z.eqb_refl.
  - unfold goto_entry. pose proof (ofst_table_spec g p _ _ _ s (gn_reduce _ _ _ _ _ _ _ G) Hs) as Hofs. destruct (nth s (k_nofs k) None) as [o|] eqn:Eo.
    + rewrite Hofs. assert (Hmin : (o =? t_reduce_min t - 1)%Z = false) by (apply Z.eqb_neq; rewrite (gn_rmin _ _ _ _ _ _ _ G); pose proof (pk_min g p k PK s false o Eo); cbn in *; lia).
      rewrite Hmin. exact (tab_probe g p t k m syms dts G o la Hla).
    + destruct Hofs as [-> | ->]; auto. now rewrite (gn_rmin _ _ _ _ _ _ _ G), Z.eqb_refl.
Qed.

(** The arrays are faithful exactly if no two different rows share an offset. *)
Definition faithful : Prop := forall s la, s < ns ->
  (la < g_nterm g -> token_entry t (num s) la = option_map (action_code b) (eff (acts p s) la)) /\
  (g_nterm g <= la < g_dflt g -> goto_entry t (num s) la = option_map (action_code b) (eff (acts p s) la)).

Lemma map_code k m syms dts o : generated g p t k m syms dts -> (forall d, o = Some d -> emits d = true) -> option_map (action_code b) o = option_map (code ns nr num) o.
Proof. intros G H. destruct o as [d|]; auto. cbn. f_equal. eapply code_eq; eauto. Qed.

Theorem faithful_iff : rows_apart b <-> faithful.
Proof.
  destruct (generate_source_inv _ _ _ (rn_tables _ _ _ _ R)) as (k & m & sy & dt & G). pose proof (gn_pack _ _ _ _ _ _ _ G) as HK.
  pose proof (rf_sort _ _ (built_rows _ _ _ _ R W)) as HS. pose proof (comp_fine _ _ _ _ R W F) as HL. pose proof (k_packed g W p t k m sy dt G HS HL) as PK.
  assert (HM : forall s la, option_map (action_code b) (eff (acts p s) la) = option_map (code ns nr num) (eff (acts p s) la)) by (intros s la; eapply map_code; eauto; intros d Hd; now apply eff_in in Hd).
  assert (HN : forall s w la, s < ns -> keep g w la = true -> ofs_of k s w = None -> eff (acts p s) la = None).
  { intros s w la Hs Hk Ho. apply eff_none. intros d Hin. destruct (emits d) eqn:E; auto. exfalso.
    assert (Hin' : In (la, code ns nr num d) (aset g p s w)) by (apply action_set_in; exists d; auto). apply (proj2 (pk_ofs g p k PK s w Hs)); auto. intros E'. now rewrite E' in Hin'. }
  assert (HK' : rows_apart b <-> packing_ok g p k) by (split; [intros H; apply H; auto|intros H k' Hk'; replace k' with k by congruence; auto]).
  rewrite HK', (probe_exact_iff g p k PK). split.
  - intros H s la Hs. split; intros Hla.
    + assert (Hk : keep g true la = true) by (unfold keep; now apply Nat.ltb_lt).
      pose proof (row_entry true s la k m sy dt G Hs Hk) as HE. cbv iota in HE. rewrite HE, HM. destruct (ofs_of k s true) as [o|] eqn:Eo; [now apply H with (b := true)|]. now rewrite (HN s true la Hs Hk Eo).
    + assert (Hk : keep g false la = true) by (unfold keep; apply andb_true_iff; split; apply negb_true_iff; [apply Nat.ltb_ge|apply Nat.eqb_neq]; lia).
      pose proof (row_entry false s la k m sy dt G Hs Hk) as HE. cbv iota in HE. rewrite HE, HM. destruct (ofs_of k s false) as [o|] eqn:Eo; [now apply H with (b := false)|]. now rewrite (HN s false la Hs Hk Eo).
  - intros H s w o la Hs Ho Hk. destruct (H s la Hs) as [H1 H2]. pose proof (row_entry w s la k m sy dt G Hs Hk) as HE. rewrite Ho in HE. rewrite <- HE.
    fold (acts p s). rewrite <- HM. destruct w.
    + apply H1. unfold keep in Hk. now apply Nat.ltb_lt.
    + destruct (Nat.lt_ge_cases la (g_dflt g)) as [L|L].
      * apply H2. unfold keep in Hk. apply andb_true_iff in Hk as [Hk _]. apply negb_true_iff, Nat.ltb_ge in Hk. lia.
      * unfold keep in Hk. apply andb_true_iff in Hk as [Hk Hk2]. apply negb_true_iff, Nat.eqb_neq in Hk2. rewrite HE, (probe_class g p (W_range g W) HL k s false o la PK Hs Ho) by lia.
        unfold acts; rewrite (eff_class g p HL s la Hs) by lia. reflexivity.
Qed.

Theorem roomy_faithful : roomy g p -> faithful.
Proof. intros H. apply faithful_iff. intros k Hk. apply (roomy_apart g p (built_rows _ _ _ _ R W)); auto. Qed.
End Exact.
