(** From the compressed states to the arrays of the generated parser: what the
    lookups [find_shift_action] and [find_reduce_action] return. *)
From Coq Require Import Sorted Permutation.
From Verif Require Import Base Syntax BaseFacts FrontEnd First States Actions Tables Runtime
  PackFacts Spec WfGrammar ActFacts CompFacts.

(** ** The final numbers of the states *)
Lemma state_order_nodup g p : NoDup (state_order g p).
Proof.
  unfold state_order, resort_states. destruct (List.length (p_states p)) as [|m]; constructor.
  - rewrite ssort_in, in_seq. lia.
  - apply ssort_nodup, seq_NoDup.
Qed.

Lemma state_order_in g p s : In s (state_order g p) <-> s < List.length (p_states p).
Proof.
  unfold state_order, resort_states. destruct (List.length (p_states p)) as [|m]; simpl; [lia|].
  rewrite ssort_in, in_seq. lia.
Qed.

Lemma state_order_length g p : List.length (state_order g p) = List.length (p_states p).
Proof.
  unfold state_order, resort_states. destruct (List.length (p_states p)) as [|m]; simpl; auto.
  now rewrite ssort_length, seq_length.
Qed.

Lemma state_num_nth g p s : s < List.length (p_states p) -> nth_error (state_order g p) (state_num g p s) = Some s.
Proof.
  intros H. apply (state_order_in g p) in H. unfold state_num, index_of.
  destruct (position (Nat.eqb s) (state_order g p)) as [i|] eqn:E.
  - apply position_some in E as (a & Ha & Hb & _). apply Nat.eqb_eq in Hb. now subst.
  - eapply position_none in E; eauto. rewrite Nat.eqb_refl in E. discriminate.
Qed.

Lemma state_num_lt g p s : s < List.length (p_states p) -> state_num g p s < List.length (p_states p).
Proof.
  intros H. rewrite <- (state_order_length g p). apply nth_error_Some. rewrite state_num_nth; auto. discriminate.
Qed.

Lemma state_num_inj g p s s' : s < List.length (p_states p) -> s' < List.length (p_states p) ->
  state_num g p s = state_num g p s' -> s = s'.
Proof. intros H H' E. apply (state_num_nth g p) in H, H'. rewrite E in H. congruence. Qed.

Lemma state_num_onto g p n : n < List.length (p_states p) -> exists s, s < List.length (p_states p) /\ state_num g p s = n.
Proof.
  intros H. rewrite <- (state_order_length g p) in H.
  destruct (nth_error (state_order g p) n) as [s|] eqn:E; [|apply nth_error_None in E; lia].
  exists s. assert (Hs : s < List.length (p_states p)) by (apply (state_order_in g p); eapply nth_error_In; eauto).
  split; auto. unfold state_num, index_of. rewrite (position_nth_nodup _ n); auto. apply state_order_nodup.
Qed.

Lemma state_num_0 g p : 0 < List.length (p_states p) -> state_num g p 0 = 0.
Proof.
  intros H. unfold state_num, index_of, state_order, resort_states. destruct (List.length (p_states p)); [lia|]. reflexivity.
Qed.

(** ** Action sets *)
Definition code (ns nr : nat) (num : nat -> nat) (d : detail) : nat :=
  match compute_action ns nr num d with Some x => x | None => 0 end.

Lemma compute_emits ns nr num d : compute_action ns nr num d = if emits d then Some (code ns nr num d) else None.
Proof. destruct d; reflexivity. Qed.

Definition keep (g : grammar) (b : bool) (la : nat) : bool :=
  if b then la <? g_nterm g else negb (la <? g_nterm g) && negb (la =? g_dflt g).

Lemma action_set_in g ns nr num st b la x :
  In (la, x) (action_set g ns nr num st b) <->
  exists d, In (mkAct la d) (s_actions st) /\ keep g b la = true /\ emits d = true /\ x = code ns nr num d.
Proof.
  unfold action_set. rewrite in_flat_map. split.
  - intros ([la' d] & Hin & H). fold (keep g b (a_la (mkAct la' d))) in H. cbn [a_la a_det] in H.
    destruct (keep g b la') eqn:Ek; [|contradiction]. rewrite compute_emits in H. destruct (emits d) eqn:Ee; [|contradiction].
    destruct H as [H|[]]. inversion H; subst. exists d. auto.
  - intros (d & Hin & Hk & He & ->). exists (mkAct la d). split; auto.
    fold (keep g b (a_la (mkAct la d))). cbn [a_la a_det]. rewrite Hk, compute_emits, He. now left.
Qed.

Lemma action_set_last g ns nr num st b la : keep g b la = true ->
  last_assoc (action_set g ns nr num st b) la = option_map (code ns nr num) (eff (s_actions st) la).
Proof.
  intros Hk. unfold action_set. induction (s_actions st) as [|[la' d] l IH]; auto.
  cbn [flat_map]. rewrite last_assoc_app, IH. cbn [eff a_la a_det].
  destruct (eff l la) as [d'|]; [reflexivity|]. simpl.
  fold (keep g b la'). rewrite compute_emits. destruct (Nat.eqb_spec la' la) as [->|Hne].
  - rewrite Hk. destruct (emits d); simpl; auto. now rewrite Nat.eqb_refl.
  - simpl. destruct (keep g b la'); auto. destruct (emits d); auto. simpl. apply Nat.eqb_neq in Hne. now rewrite Hne.
Qed.

Lemma action_set_sorted g ns nr num st b : la_sorted (s_actions st) ->
  StronglySorted (fun x y => fst x <= fst y) (action_set g ns nr num st b).
Proof.
  unfold action_set, la_sorted. induction 1 as [|[la d] l H IH HF]; [constructor|]. cbn [flat_map a_la a_det].
  set (rest := flat_map _ l) in *. fold (keep g b la). destruct (keep g b la); auto. rewrite compute_emits. destruct (emits d); auto.
  constructor; auto. apply Forall_forall. intros [la' x'] Hin. simpl.
  assert (Hin' : In (la', x') (action_set g ns nr num (st_set_actions l st) b)) by exact Hin.
  apply action_set_in in Hin' as (d' & Hd' & _). rewrite Forall_forall in HF. apply (HF _ Hd').
Qed.

Lemma sorted_hd (l : list (nat * nat)) : StronglySorted (fun x y => fst x <= fst y) l ->
  Forall (fun e => fst (hd (0, 0) l) <= fst e) l.
Proof. intros [|a l' H HF]; simpl; constructor; auto. Qed.

Lemma sorted_last (l : list (nat * nat)) : StronglySorted (fun x y => fst x <= fst y) l ->
  Forall (fun e => fst e <= fst (last l (0, 0))) l.
Proof.
  induction 1 as [|a l H IH HF]; simpl; [constructor|]. destruct l as [|b l]; [constructor; auto|].
  constructor; auto. inversion HF; subst. inversion IH; subst. lia.
Qed.

(** Lookaheads of a state's actions stay below {default} (flat grammars). *)
Definition las_ok (g : grammar) (st : state) : Prop :=
  forall a, In a (s_actions st) -> emits (a_det a) = true -> a_la a <= g_dflt g.

Lemma state_counts_spec g ns nr st num : g_nterm g <= g_dflt g -> las_ok g st ->
  k_tkn (state_counts g ns nr st) = List.length (action_set g ns nr num st true) /\
  k_nt (state_counts g ns nr st) = List.length (action_set g ns nr num st false) /\
  k_dflt (state_counts g ns nr st) = match eff (s_actions st) (g_dflt g) with
                                      | Some d => code ns nr (fun x => x) d | None => ns + nr end.
Proof.
  intros Hn. unfold las_ok, state_counts, action_set.
  set (stp := fun (k : counts) (a : action) => _).
  assert (HG : forall l k, (forall a, In a l -> emits (a_det a) = true -> a_la a <= g_dflt g) ->
    let k' := fold_left stp l k in
    k_tkn k' = k_tkn k + List.length (flat_map (fun a => if keep g true (a_la a) then
        match compute_action ns nr num (a_det a) with Some x => [(a_la a, x)] | None => [] end else []) l) /\
    k_nt k' = k_nt k + List.length (flat_map (fun a => if keep g false (a_la a) then
        match compute_action ns nr num (a_det a) with Some x => [(a_la a, x)] | None => [] end else []) l) /\
    k_dflt k' = match eff l (g_dflt g) with Some d => code ns nr (fun x => x) d | None => k_dflt k end).
  { induction l as [|[la d] l IH]; intros k Hl; cbn [fold_left flat_map].
    - simpl. lia.
    - assert (Hl' : forall a, In a l -> emits (a_det a) = true -> a_la a <= g_dflt g) by (intros; apply Hl; auto; now right).
      destruct (IH (stp k (mkAct la d)) Hl') as (I1 & I2 & I3). rewrite I1, I2, I3, !app_length. cbn [eff a_la a_det].
      unfold stp. cbn [a_la a_det]. rewrite !compute_emits. pose proof (Hl (mkAct la d) (or_introl eq_refl)) as Hd. cbn [a_la a_det] in Hd.
      destruct (emits d) eqn:Ee.
      + specialize (Hd eq_refl). rewrite andb_true_r. unfold keep.
        destruct (Nat.ltb_spec la (g_nterm g)); destruct (Nat.ltb_spec la (g_dflt g)); destruct (Nat.eqb_spec la (g_dflt g)); try lia;
          cbn [negb andb List.length k_tkn k_nt k_dflt]; destruct (eff l (g_dflt g)); splits; try lia; auto.
      + rewrite andb_false_r. destruct (keep g true la), (keep g false la); cbn [List.length]; destruct (eff l (g_dflt g)); splits; auto. }
  intros Hl. destruct (HG (s_actions st) (mkCounts 0 0 (ns + nr)) Hl) as (H1 & H2 & H3). simpl in H1, H2, H3. splits; auto.
Qed.

Lemma zidx_some z n i : zidx z n = Some i <-> (z = Z.of_nat i /\ i < n).
Proof.
  unfold zidx. destruct (Z.ltb_spec z 0); simpl.
  - split; [discriminate|lia].
  - destruct (Z.leb_spec (Z.of_nat n) z).
    + split; [discriminate|lia].
    + split; [intros E; inversion E; subst; lia|]. intros [-> Hi]. f_equal. lia.
Qed.
Lemma zidx_none z n : zidx z n = None <-> (z < 0 \/ Z.of_nat n <= z)%Z.
Proof.
  unfold zidx. destruct (Z.ltb_spec z 0); simpl; [split; auto|]. destruct (Z.leb_spec (Z.of_nat n) z); split; auto; try discriminate; lia.
Qed.

(** The cell a lookup inspects. *)
Definition probe (k : packing) (o : Z) (la : nat) : option nat :=
  match zidx (o + Z.of_nat la) (List.length (k_tab k)) with
  | None => None
  | Some i => match cell (k_tab k) i with Some (la', a) => if la' =? la then Some a else None | None => None end
  end.

Lemma probe_some k o la a : probe k o la = Some a <-> exists i, Z.of_nat i = (Z.of_nat la + o)%Z /\ cell (k_tab k) i = Some (la, a).
Proof.
  unfold probe. split.
  - destruct (zidx _ _) as [i|] eqn:E; [|discriminate]. apply zidx_some in E as [E1 E2].
    destruct (cell (k_tab k) i) as [[la' a']|] eqn:Ec; [|discriminate]. destruct (Nat.eqb_spec la' la) as [->|]; [|discriminate].
    intros H. inversion H; subst. exists i. split; [lia|auto].
  - intros (i & E & Hc). pose proof (cell_bound _ _ _ Hc). rewrite (proj2 (zidx_some _ _ i)) by (split; lia).
    now rewrite Hc, Nat.eqb_refl.
Qed.

(** ** The packing loop *)
Section Pack.
Context (g : grammar) (p : pst).
Let ns := List.length (p_states p).
Let nr := List.length (g_rules g).
Let num := state_num g p.
Definition aset (s : nat) (b : bool) : list (nat * nat) := action_set g ns nr num (pstate p s) b.

Definition ofs_of (k : packing) (s : nat) (b : bool) : option Z :=
  if b then nth s (k_tofs k) None else nth s (k_nofs k) None.
Definition min_of (k : packing) (b : bool) : Z := if b then k_tmin k else k_nmin k.
Definition max_of (k : packing) (b : bool) : Z := if b then k_tmax k else k_nmax k.

Definition placed_in (k : packing) (set : list (nat * nat)) (o : Z) : Prop :=
  exists s b, s < ns /\ ofs_of k s b = Some o /\ set = aset s b.

Record packed (k : packing) : Prop := {
  pk_len : List.length (k_tofs k) = ns /\ List.length (k_nofs k) = ns;
  pk_tab : table_inv (k_tab k) (placed_in k);
  pk_ofs : forall s b, s < ns -> (ofs_of k s b <> None <-> aset s b <> []);
  pk_min : forall s b o, ofs_of k s b = Some o -> (min_of k b <= o <= max_of k b)%Z;
  pk_neg : forall b, (min_of k b <= 0 <= max_of k b)%Z }.

(** No two states with different actions share an offset: the property that
    [insert_action_set] fails to guarantee (packing_refuted). *)
Definition packing_ok (k : packing) : Prop :=
  forall b s1 s2 o, s1 < ns -> s2 < ns -> ofs_of k s1 b = Some o -> ofs_of k s2 b = Some o -> same_set (aset s1 b) (aset s2 b).

(** Exactness of the packed table, token rows and goto rows. *)
Theorem probe_exact k s b o la : packed k -> packing_ok k -> s < ns -> ofs_of k s b = Some o ->
  keep g b la = true ->
  probe k o la = option_map (code ns nr num) (eff (s_actions (pstate p s)) la).
Proof.
  intros [L T O Mi Ng] Hok Hs Ho Hk. rewrite <- (action_set_last g ns nr num (pstate p s) b la Hk). fold (aset s b).
  destruct T as [T1 T2]. destruct (last_assoc (aset s b) la) as [a|] eqn:E.
  - apply probe_some. destruct (T2 (aset s b) o la a) as (i & Hi & Hc); auto.
    + exists s, b. auto.
    + exists i. auto.
  - destruct (probe k o la) as [a|] eqn:Ep; auto. exfalso. apply probe_some in Ep as (i & Hi & Hc).
    destruct (T1 _ _ _ Hc) as (set & o' & (s' & b' & Hs' & Ho' & ->) & Hi' & Hl). assert (o' = o) by lia. subst o'.
    assert (b' = b).
    { apply last_assoc_in, action_set_in in Hl as (d & _ & Hk' & _). unfold keep in *.
      destruct b, b'; auto; apply andb_true_iff in Hk as [Hk1 _] || apply andb_true_iff in Hk' as [Hk1 _]; apply negb_true_iff in Hk1; congruence. }
    subst b'. rewrite (Hok b s s' o Hs Hs' Ho Ho' la) in E. congruence.
Qed.

(** Conversely every leak is a wrong answer of a lookup. *)
Theorem probe_exact_iff k : packed k ->
  (packing_ok k <-> forall s b o la, s < ns -> ofs_of k s b = Some o -> keep g b la = true ->
     probe k o la = option_map (code ns nr num) (eff (s_actions (pstate p s)) la)).
Proof.
  intros P. split; [intros; eapply probe_exact; eauto|]. intros H b s1 s2 o H1 H2 O1 O2 la.
  destruct (keep g b la) eqn:Ek.
  - unfold aset. rewrite !action_set_last by auto. rewrite <- (H s1 b o la), <- (H s2 b o la) by auto. reflexivity.
  - assert (HN : forall s, last_assoc (aset s b) la = None).
    { intros s. apply last_assoc_none. intros a Hin. apply action_set_in in Hin as (d & _ & Hk & _). congruence. }
    now rewrite !HN.
Qed.

Context (Hsort : forall s, s < ns -> la_sorted (s_actions (pstate p s))).

Record pack_inv (done : list axset) (k : packing) : Prop := {
  pi_len : List.length (k_tofs k) = ns /\ List.length (k_nofs k) = ns;
  pi_tab : table_inv (k_tab k) (placed_in k);
  pi_done : forall s b n, s < ns -> In (s, b, n) done -> (ofs_of k s b <> None <-> n <> 0);
  pi_not : forall s b, s < ns -> (forall n, ~ In (s, b, n) done) -> ofs_of k s b = None;
  pi_min : forall s b o, ofs_of k s b = Some o -> (min_of k b <= o <= max_of k b)%Z;
  pi_neg : forall b, (min_of k b <= 0)%Z;
  pi_max : forall b, (0 <= max_of k b)%Z }.

Lemma table_inv_ext tab (P Q : list (nat * nat) -> Z -> Prop) : (forall s o, P s o <-> Q s o) -> table_inv tab P -> table_inv tab Q.
Proof.
  intros H [I1 I2]. split.
  - intros k la a Hc. destruct (I1 _ _ _ Hc) as (s & o & Hp & Hr). exists s, o. split; auto. now apply H.
  - intros s o la a Hp. apply I2. now apply H.
Qed.

Lemma pack_one_inv done k s b n k' : s < ns -> (forall n', ~ In (s, b, n') done) ->
  pack_inv done k -> pack_one g ns nr num (p_states p) k (s, b, n) = GOk k' -> pack_inv (done ++ [(s, b, n)]) k'.
Proof.
  intros Hs Hnew [Hlen Htab Hdone Hnot Hmin Hneg Hmax] H. unfold pack_one in H.
  destruct (Nat.eqb_spec n 0) as [->|Hn0].
  { inversion H; subst k'. constructor; auto.
    - intros s' b' n' Hs' Hin. apply in_app_iff in Hin as [Hin|[E|[]]]; [eauto|].
      inversion E; subst. rewrite (Hnot _ _ Hs Hnew). split; congruence.
    - intros s' b' Hs' Hn'. apply Hnot; auto. intros n' Hin. apply (Hn' n'), in_app_iff. auto. }
  apply gbind_ok in H as ([ofs tab] & Hi & H).
  change (nth s (p_states p) dummy_state) with (pstate p s) in Hi. fold (aset s b) in Hi.
  assert (Hb : forall s' b', s' < ns -> ofs_of k' s' b' = if (s' =? s) && Bool.eqb b' b then Some ofs else ofs_of k s' b').
  { intros s' b' Hs'. destruct Hlen as [L1 L2]. unfold ofs_of. destruct b; inversion H; subst k'; cbn [k_tofs k_nofs]; destruct b'; cbn [Bool.eqb];
      rewrite ?andb_false_r, ?andb_true_r; auto; rewrite nth_upd, ?L1, ?L2; destruct (Nat.eqb_spec s' s) as [->|];
      destruct (Nat.ltb_spec s ns); try lia; rewrite ?Nat.eqb_refl; auto; destruct (Nat.eqb_spec s s'); try congruence; auto. }
  assert (Hk : k_tab k' = tab) by (destruct b; inversion H; subst; reflexivity).
  assert (HL : List.length (k_tofs k') = ns /\ List.length (k_nofs k') = ns) by (destruct b; inversion H; subst; cbn [k_tofs k_nofs]; rewrite ?upd_length; auto).
  pose proof (Hnot _ _ Hs Hnew) as Hnone.
  constructor; auto.
  - rewrite Hk. assert (Hss : StronglySorted (fun x y => fst x <= fst y) (aset s b)) by (apply action_set_sorted, Hsort; auto).
    apply sorted_hd in Hss. pose proof (insert_inv _ _ _ _ _ Htab Hi Hss) as HT.
    apply (table_inv_ext _ _ _) with (2 := HT). intros set o. split.
    + intros [(s' & b' & Hs' & Ho & ->)|[-> ->]].
      * exists s', b'. splits; auto. rewrite Hb by auto. destruct (Nat.eqb_spec s' s) as [->|]; auto. destruct (Bool.eqb_spec b' b) as [->|]; auto. congruence.
      * exists s, b. splits; auto. rewrite Hb, Nat.eqb_refl, Bool.eqb_reflx by auto. reflexivity.
    + intros (s' & b' & Hs' & Ho & ->). rewrite Hb in Ho by auto. destruct (Nat.eqb_spec s' s) as [->|].
      * destruct (Bool.eqb_spec b' b) as [->|]; simpl in Ho; [right; split; congruence|]. left. exists s, b'. auto.
      * left. exists s', b'. auto.
  - intros s' b' n' Hs' Hin. rewrite Hb by auto. apply in_app_iff in Hin as [Hin|[E|[]]].
    + destruct (Nat.eqb_spec s' s) as [->|]; simpl; [|eauto]. destruct (Bool.eqb_spec b' b) as [->|]; simpl; [|eauto]. now apply Hnew in Hin.
    + inversion E; subst. rewrite Nat.eqb_refl, Bool.eqb_reflx. simpl. split; congruence.
  - intros s' b' Hs' Hn'. rewrite Hb by auto. destruct (Nat.eqb_spec s' s) as [->|]; simpl.
    + destruct (Bool.eqb_spec b' b) as [->|]; simpl.
      * exfalso. apply (Hn' n), in_app_iff. right. now left.
      * apply Hnot; auto. intros n' Hin. apply (Hn' n'), in_app_iff. auto.
    + apply Hnot; auto. intros n' Hin. apply (Hn' n'), in_app_iff. auto.
  - intros s' b' o Ho.
    assert (Hs' : s' < ns).
    { destruct (Nat.lt_ge_cases s' ns); auto. exfalso. destruct HL as [L1 L2]. unfold ofs_of in Ho.
      destruct b'; rewrite nth_overflow in Ho by lia; discriminate. }
    rewrite Hb in Ho by auto.
    assert (Hmm : min_of k' b' = (if Bool.eqb b' b then Z.min ofs (min_of k b') else min_of k b') /\
                  max_of k' b' = (if Bool.eqb b' b then Z.max ofs (max_of k b') else max_of k b')).
    { destruct b; inversion H; subst k'; destruct b'; simpl; auto. }
    destruct Hmm as [-> ->]. destruct (Bool.eqb b' b) eqn:Eb.
    + destruct (Nat.eqb_spec s' s); simpl in Ho.
      * inversion Ho; subst. lia.
      * pose proof (Hmin _ _ _ Ho). lia.
    + rewrite andb_false_r in Ho. eauto.
  - intros b'. specialize (Hneg b'). destruct b; inversion H; subst k'; destruct b'; simpl in *; lia.
  - intros b'. specialize (Hmax b'). destruct b; inversion H; subst k'; destruct b'; simpl in *; lia.
Qed.

Lemma pack_all_inv ax k : (forall s b n, In (s, b, n) ax -> s < ns) -> NoDup (map fst ax) ->
  pack_all g ns nr num (p_states p) ax = GOk k -> pack_inv ax k.
Proof.
  intros Hr Hnd H. unfold pack_all in H.
  assert (HG : forall l done k0 k1, gfold (pack_one g ns nr num (p_states p)) l k0 = GOk k1 ->
    (forall s b n, In (s, b, n) l -> s < ns) -> NoDup (map fst (done ++ l)) -> pack_inv done k0 -> pack_inv (done ++ l) k1).
  { induction l as [|[[s b] n] l IH]; intros done k0 k1 Hg Hl Hn Hi; cbn [gfold] in Hg.
    - inversion Hg; subst. now rewrite app_nil_r.
    - apply gbind_ok in Hg as (k2 & H1 & H2).
      enough (pack_inv ((done ++ [(s, b, n)]) ++ l) k1) as HE by (rewrite <- app_assoc in HE; exact HE).
      apply (IH (done ++ [(s, b, n)]) k2 k1 H2).
      + intros; eapply Hl; right; eauto.
      + rewrite <- app_assoc. exact Hn.
      + eapply pack_one_inv; eauto; [eapply Hl; now left|]. intros n' Hin. rewrite map_app in Hn. apply nodup_app_iff in Hn as (_ & _ & Hd).
        apply (Hd (s, b)); [apply in_map_iff; exists (s, b, n'); auto|now left]. }
  apply (HG ax [] _ _ H); auto. constructor.
  - simpl. now rewrite repeat_length.
  - split; [intros k' la a Hc; unfold cell in Hc; simpl in Hc; destruct k'; discriminate|].
    intros s o la a (s' & b & Hs' & Ho & _). unfold ofs_of in Ho. simpl in Ho. rewrite nth_repeat in Ho. destruct b; discriminate.
  - intros s b n _ [].
  - intros s b _ _. unfold ofs_of. simpl. rewrite nth_repeat. now destruct b.
  - intros s b o Ho. unfold ofs_of in Ho. simpl in Ho. rewrite nth_repeat in Ho. destruct b; discriminate.
  - intros []; simpl; lia.
  - intros []; simpl; lia.
Qed.

Lemma ax_sets_in ks order s b n : In (s, b, n) (ax_sets ks order) <->
  In s order /\ n = (if b then k_tkn else k_nt) (nth s ks (mkCounts 0 0 0)).
Proof.
  unfold ax_sets. rewrite <- in_rev, ssort_in, in_flat_map. split.
  - intros (s' & Hin & [E|[E|[]]]); inversion E; subst; auto.
  - intros [Hin ->]. exists s. split; auto. destruct b; [now left|right; now left].
Qed.

Lemma ax_sets_nodup ks order : NoDup order -> NoDup (map fst (ax_sets ks order)).
Proof.
  intros Hn. unfold ax_sets. set (l := flat_map _ order).
  assert (Hp : Permutation (map fst (rev (ssort ax_less l))) (map fst l)).
  { apply Permutation_map. rewrite <- Permutation_rev. apply ssort_perm. }
  apply (Permutation_NoDup (Permutation_sym Hp)). unfold l. clear l Hp. induction Hn as [|s l Hs Hn IH]; simpl; [constructor|].
  constructor; [|constructor; auto].
  - intros [E|Hin]; [discriminate|]. apply in_map_iff in Hin as ([[s' b] n] & E & Hin). apply in_flat_map in Hin as (s2 & H2 & [E2|[E2|[]]]); simpl in E; inversion E; inversion E2; subst; contradiction.
  - intros Hin. apply in_map_iff in Hin as ([[s' b] n] & E & Hin). apply in_flat_map in Hin as (s2 & H2 & [E2|[E2|[]]]); simpl in E; inversion E; inversion E2; subst; contradiction.
Qed.

Context (Hn : g_nterm g <= g_dflt g) (Hlas : forall s, s < ns -> las_ok g (pstate p s)).

Lemma all_counts_nth s : s < ns -> nth s (all_counts g p) (mkCounts 0 0 0) = state_counts g ns nr (pstate p s).
Proof.
  intros H. unfold all_counts. fold ns nr. erewrite nth_error_nth; [reflexivity|].
  rewrite nth_error_map. unfold pstate. now rewrite (nth_error_nth' _ dummy_state).
Qed.

Theorem pack_states_spec k : pack_states g p = GOk k -> packed k.
Proof.
  intros H. unfold pack_states in H. fold ns nr num in H.
  assert (HI : pack_inv (ax_sets (all_counts g p) (state_order g p)) k).
  { apply pack_all_inv; auto.
    - intros s b n Hin. apply ax_sets_in in Hin as [Hin _]. now apply state_order_in in Hin.
    - apply ax_sets_nodup, state_order_nodup. }
  destruct HI as [L T D N Mi Ng Mx]. constructor; auto.
  intros s b Hs. rewrite (D s b ((if b then k_tkn else k_nt) (nth s (all_counts g p) (mkCounts 0 0 0))) Hs).
  2:{ apply ax_sets_in. split; [now apply state_order_in|reflexivity]. }
  rewrite all_counts_nth by auto. destruct (state_counts_spec g ns nr (pstate p s) num Hn (Hlas s Hs)) as (C1 & C2 & _).
  unfold aset. destruct b; [rewrite C1|rewrite C2].
  - destruct (action_set g ns nr num (pstate p s) true); simpl; split; intros; congruence.
  - destruct (action_set g ns nr num (pstate p s) false); simpl; split; intros; congruence.
Qed.

(** A symbol above {default} is in no set. *)
Lemma probe_class k s b o la : packed k -> s < ns -> ofs_of k s b = Some o -> g_dflt g < la -> probe k o la = None.
Proof.
  intros [L T O Mi Ng] Hs Ho Hla. destruct (probe k o la) as [a|] eqn:Ep; auto. exfalso. apply probe_some in Ep as (i & Hi & Hc).
  destruct T as [T1 _]. destruct (T1 _ _ _ Hc) as (set & o' & (s' & b' & Hs' & _ & ->) & _ & Hl).
  apply last_assoc_in, action_set_in in Hl as (d & Hd & _ & He & _). pose proof (Hlas s' Hs' _ Hd He). simpl in *. lia.
Qed.
End Pack.
