(** The packed table: what [insert_action_set] guarantees and what it does not. *)
From Verif Require Import Base Syntax BaseFacts FrontEnd First States Actions Tables.

(** ** Specification vocabulary *)

(** The action a set of (lookahead, action) pairs prescribes: the last one wins. *)
Fixpoint last_assoc (s : list (nat * nat)) (la : nat) : option nat :=
  match s with
  | [] => None
  | (l, a) :: s' =>
      match last_assoc s' la with
      | Some x => Some x
      | None => if l =? la then Some a else None
      end
  end.

(** The contents of a cell. *)
Definition cell (tab : acttab) (k : nat) : option (nat * nat) :=
  match nth_error tab k with Some (Some e) => Some e | _ => None end.

Lemma last_assoc_in s la a : last_assoc s la = Some a -> In (la, a) s.
Proof.
  induction s as [|[l x] s IH]; simpl; [discriminate|].
  destruct (last_assoc s la) eqn:E.
  - intros H. inversion H; subst. auto.
  - destruct (Nat.eqb_spec l la); [|discriminate]. intros H. inversion H; subst. auto.
Qed.

Lemma last_assoc_none s la : last_assoc s la = None <-> forall a, ~ In (la, a) s.
Proof.
  induction s as [|[l x] s IH]; simpl; [split; auto|].
  destruct (last_assoc s la) eqn:E.
  - split; [discriminate|]. intros H. exfalso. apply (H n). right. now apply last_assoc_in.
  - pose proof (proj1 IH eq_refl) as IH'. destruct (Nat.eqb_spec l la).
    + split; [discriminate|]. intros H. exfalso. apply (H x). left. now subst.
    + split; auto. intros _ a [H|H]; [congruence|]. now apply (IH' a).
Qed.

Lemma last_assoc_app s1 s2 la :
  last_assoc (s1 ++ s2) la =
  match last_assoc s2 la with Some x => Some x | None => last_assoc s1 la end.
Proof.
  induction s1 as [|[l x] s1 IH]; simpl.
  - destruct (last_assoc s2 la); auto.
  - rewrite IH. destruct (last_assoc s2 la); auto.
Qed.

Lemma last_assoc_unique s la a :
  In (la, a) s -> (forall a', In (la, a') s -> a' = a) -> last_assoc s la = Some a.
Proof.
  intros H Hu. destruct (last_assoc s la) as [x|] eqn:E.
  - apply last_assoc_in in E. f_equal. auto.
  - exfalso. rewrite last_assoc_none in E. exact (E _ H).
Qed.

(** ** put *)
Lemma cell_put tab j e k : cell (put tab j e) k = if k =? j then Some e else cell tab k.
Proof.
  unfold cell, put. rewrite nth_error_upd.
  rewrite (Nat.eqb_sym k j). destruct (Nat.eqb_spec j k) as [->|Hne].
  - destruct (nth_error (tab ++ repeat None (S k - List.length tab)) k) eqn:E; [reflexivity|].
    apply nth_error_None in E. rewrite app_length, repeat_length in E. lia.
  - destruct (Nat.lt_ge_cases k (List.length tab)) as [H|H].
    + rewrite nth_error_app1 by auto. reflexivity.
    + rewrite nth_error_app2 by auto.
      rewrite (proj2 (nth_error_None tab k)) by auto.
      destruct (nth_error (repeat None (S j - List.length tab)) (k - List.length tab)) eqn:E; auto.
      apply nth_error_In, repeat_spec in E. subst. reflexivity.
Qed.

Definition puts (mn i : nat) (set : list (nat * nat)) (tab : acttab) : acttab :=
  fold_left (fun tab e => put tab (fst e - mn + i) e) set tab.

Lemma cell_puts mn i set tab k :
  Forall (fun e => mn <= fst e) set ->
  cell (puts mn i set tab) k =
  match (if i <=? k then last_assoc set (k - i + mn) else None) with
  | Some a => Some (k - i + mn, a)
  | None => cell tab k
  end.
Proof.
  unfold puts. revert tab. induction set as [|[l a] set IH]; intros tab H; simpl.
  - destruct (i <=? k); reflexivity.
  - inversion H as [|? ? Hl H']; subst. rewrite IH by auto. rewrite cell_put. simpl in *.
    destruct (Nat.leb_spec i k) as [Hik|Hik].
    + destruct (last_assoc set (k - i + mn)) eqn:E; auto.
      destruct (Nat.eqb_spec k (l - mn + i)) as [Hk|Hk];
        destruct (Nat.eqb_spec l (k - i + mn)) as [Hl'|Hl']; try lia; auto.
      now rewrite <- Hl'.
    + destruct (Nat.eqb_spec k (l - mn + i)); [lia|reflexivity].
Qed.

(** ** one insertion *)
Lemma in_rev_seq i n : In i (rev (seq 0 n)) -> i < n.
Proof. intros H. apply in_rev, in_seq in H. lia. Qed.

(** Where the set ends up, and what is in its cells beforehand. *)
Lemma insert_action_set_spec tab set ofs tab' :
  insert_action_set tab set = GOk (ofs, tab') ->
  Forall (fun e => fst (hd (0, 0) set) <= fst e) set ->
  exists mn i,
    ofs = (Z.of_nat i - Z.of_nat mn)%Z /\ mn = fst (hd (0, 0) set) /\ set <> [] /\
    tab' = puts mn i set tab /\
    forall e, In e set ->
      cell tab (fst e - mn + i) = None \/ cell tab (fst e - mn + i) = Some e.
Proof.
  unfold insert_action_set. intros H Hmn. destruct set as [|[mn mact] set0] eqn:Eset; [discriminate|].
  rewrite <- Eset in *.
  set (f := find (dup_at tab set mn mact) (rev (seq 0 (List.length tab)))) in H.
  exists mn. 
  assert (Hmn' : fst (hd (0, 0) set) = mn) by (rewrite Eset; reflexivity).
  rewrite Hmn' in Hmn.
  destruct f as [i|] eqn:Ef; unfold f in Ef.
  - exists i. inversion H; subst ofs tab'. repeat split; auto; try congruence.
    apply find_some in Ef as [Hi Hd]. unfold dup_at in Hd.
    destruct (nth_error tab i) as [[[la ac]|]|]; try discriminate.
    rewrite !andb_true_iff in Hd. destruct Hd as [[[_ _] Hd] _].
    intros e He. rewrite forallb_forall in Hd. specialize (Hd e He). right. unfold cell.
    destruct (nth_error tab (fst e - mn + i)) as [[[la' ac']|]|]; try discriminate.
    apply andb_true_iff in Hd as [H1 H2]. apply Nat.eqb_eq in H1, H2. destruct e; simpl in *; congruence.
  - clear Ef f.
    destruct (find (hole_at tab set mn) (seq 0 (List.length tab + fst (last set (0, 0))))) as [i|] eqn:Ef.
    + exists i. inversion H; subst ofs tab'. repeat split; auto; try congruence.
      apply find_some in Ef as [Hi Hd]. unfold hole_at in Hd. apply andb_true_iff in Hd as [Hd _].
      intros e He. rewrite forallb_forall in Hd. specialize (Hd e He). left. unfold cell.
      destruct (nth_error tab (fst e - mn + i)) as [[?|]|]; auto; discriminate.
    + exists (List.length tab). inversion H; subst ofs tab'. repeat split; auto; try congruence.
      intros e He. left. unfold cell.
      rewrite (proj2 (nth_error_None _ _)); auto. lia.
Qed.

(** The contents of the table are exactly the placed sets. *)
Definition table_inv (tab : acttab) (placed : list (nat * nat) -> Z -> Prop) : Prop :=
  (forall k la a, cell tab k = Some (la, a) ->
     exists s o, placed s o /\ Z.of_nat k = (Z.of_nat la + o)%Z /\ last_assoc s la = Some a)
  /\ (forall s o la a, placed s o -> last_assoc s la = Some a ->
     exists k, Z.of_nat k = (Z.of_nat la + o)%Z /\ cell tab k = Some (la, a)).

Lemma insert_inv tab placed set ofs tab' :
  table_inv tab placed ->
  insert_action_set tab set = GOk (ofs, tab') ->
  Forall (fun e => fst (hd (0, 0) set) <= fst e) set ->
  table_inv tab' (fun s o => placed s o \/ (s = set /\ o = ofs)).
Proof.
  intros [I1 I2] Hins Hmn.
  destruct (insert_action_set_spec _ _ _ _ Hins Hmn) as (mn & i & Ho & Hmn' & Hne & -> & Hcells).
  rewrite <- Hmn' in Hmn. rewrite Forall_forall in Hmn. split.
  - intros k la a Hc. rewrite cell_puts in Hc by now apply Forall_forall.
    destruct (Nat.leb_spec i k) as [Hik|Hik].
    + destruct (last_assoc set (k - i + mn)) as [x|] eqn:E.
      * inversion Hc; subst la a. exists set, ofs. repeat split; auto. rewrite Ho. lia.
      * destruct (I1 _ _ _ Hc) as (s & o & Hp & Hk & Hl). exists s, o. auto.
    + destruct (I1 _ _ _ Hc) as (s & o & Hp & Hk & Hl). exists s, o. auto.
  - intros s o la a [Hp|[-> ->]] Hl.
    + destruct (I2 _ _ _ _ Hp Hl) as (k & Hk & Hc). exists k. split; auto.
      rewrite cell_puts by now apply Forall_forall.
      destruct (Nat.leb_spec i k) as [Hik|Hik]; auto.
      destruct (last_assoc set (k - i + mn)) as [x|] eqn:E; auto.
      apply last_assoc_in in E. pose proof (Hmn _ E) as Hge.
      destruct (Hcells _ E) as [Hn|Hs]; simpl in *.
      * replace (k - i + mn - mn + i) with k in Hn by lia. congruence.
      * replace (k - i + mn - mn + i) with k in Hs by lia. congruence.
    + exists (la - mn + i). pose proof (last_assoc_in _ _ _ Hl) as Hin. pose proof (Hmn _ Hin) as Hge.
      simpl in Hge. split; [lia|].
      rewrite cell_puts by now apply Forall_forall.
      destruct (Nat.leb_spec i (la - mn + i)); [|lia].
      replace (la - mn + i - i + mn) with la by lia. now rewrite Hl.
Qed.

(** ** When is a fresh offset really fresh?

    [insert_action_set] returns an offset that no differing set already uses,
    provided the set has two different lookaheads or has lookahead 0.  In the
    remaining case, a single lookahead [m > 0], the loop bound mod.rs 417 is one
    short; the search still succeeds unless the last [m] entries of the table are
    all for lookahead 0. *)
Definition tail_zero (tab : acttab) (m : nat) : Prop :=
  m <= List.length tab /\ forall d, 1 <= d <= m -> exists a, cell tab (List.length tab - d) = Some (0, a).
Definition has_room (tab : acttab) (set : list (nat * nat)) : Prop :=
  fst (hd (0, 0) set) < fst (last set (0, 0)) \/ fst (hd (0, 0) set) = 0 \/ ~ tail_zero tab (fst (hd (0, 0) set)).

Lemma aligned_enum tab mn i :
  existsb (aligned mn i) (enum tab) = false <->
  forall k la a, cell tab k = Some (la, a) -> la + i <> k + mn.
Proof.
  unfold enum, cell. split.
  - intros H k la a Hc Heq.
    destruct (nth_error tab k) as [[e|]|] eqn:E; try discriminate.
    inversion Hc; subst e.
    assert (Hk : k < List.length tab) by (apply nth_error_Some; congruence).
    assert (Hin : In (k, Some (la, a)) (combine (seq 0 (List.length tab)) tab)).
    { replace (k, Some (la, a)) with (nth k (combine (seq 0 (List.length tab)) tab) (0, None)).
      - apply nth_In. rewrite combine_length, seq_length. lia.
      - rewrite combine_nth by now rewrite seq_length. rewrite seq_nth by auto. simpl.
        f_equal. now apply nth_error_nth. }
    assert (existsb (aligned mn i) (combine (seq 0 (List.length tab)) tab) = true).
    { apply existsb_exists. exists (k, Some (la, a)). split; auto. unfold aligned; simpl.
      now apply Nat.eqb_eq. }
    congruence.
  - intros H. destruct (existsb _ _) eqn:E; auto. exfalso.
    apply existsb_exists in E as ([k e] & Hin & Ha). unfold aligned in Ha; simpl in Ha.
    destruct e as [[la a]|]; [|discriminate]. apply Nat.eqb_eq in Ha.
    apply (In_nth _ _ (0, None)) in Hin as (n & Hn & Hnth).
    rewrite combine_length, seq_length in Hn.
    rewrite combine_nth in Hnth by now rewrite seq_length.
    rewrite seq_nth in Hnth by lia. simpl in Hnth. inversion Hnth; subst k.
    apply (H n la a); auto.
    rewrite (nth_error_nth' tab None) by lia. now rewrite H2.
Qed.

Lemma cell_bound tab k e : cell tab k = Some e -> k < List.length tab.
Proof.
  unfold cell. intros H. apply nth_error_Some. destruct (nth_error tab k); congruence.
Qed.

Lemma nodup_same_length {A} (dec : forall x y : A, {x = y} + {x <> y}) (l m : list A) :
  NoDup l -> incl l m -> List.length m <= List.length l -> incl m l.
Proof. intros H1 H2 H3. apply NoDup_length_incl; auto. Qed.

(** Two sets that prescribe the same action for every lookahead. *)
Definition same_set (s1 s2 : list (nat * nat)) : Prop :=
  forall la, last_assoc s1 la = last_assoc s2 la.

Definition offsets_ok (placed : list (nat * nat) -> Z -> Prop) : Prop :=
  forall s1 s2 o, placed s1 o -> placed s2 o -> same_set s1 s2.

Lemma filter_aligned_in tab mn i k e :
  In (k, e) (filter (aligned mn i) (enum tab)) <->
  exists la a, e = Some (la, a) /\ cell tab k = Some (la, a) /\ la + i = k + mn.
Proof.
  rewrite filter_In. unfold enum, cell. split.
  - intros [Hin Ha]. unfold aligned in Ha; simpl in Ha. destruct e as [[la a]|]; [|discriminate].
    apply Nat.eqb_eq in Ha. exists la, a. repeat split; auto.
    apply (In_nth _ _ (0, None)) in Hin as (n & Hn & Hnth).
    rewrite combine_length, seq_length in Hn.
    rewrite combine_nth in Hnth by now rewrite seq_length.
    rewrite seq_nth in Hnth by lia. simpl in Hnth. inversion Hnth; subst k.
    rewrite (nth_error_nth' tab None) by lia. now rewrite H1.
  - intros (la & a & -> & Hc & Heq). split.
    + destruct (nth_error tab k) as [[e|]|] eqn:E; try discriminate. inversion Hc; subst e.
      assert (Hk : k < List.length tab) by (apply nth_error_Some; congruence).
      replace (k, Some (la, a)) with (nth k (combine (seq 0 (List.length tab)) tab) (0, None)).
      * apply nth_In. rewrite combine_length, seq_length. lia.
      * rewrite combine_nth by now rewrite seq_length. rewrite seq_nth by auto. simpl.
        f_equal. now apply nth_error_nth.
    + unfold aligned. simpl. now apply Nat.eqb_eq.
Qed.

Lemma enum_nodup {A} (l : list A) : NoDup (enum l).
Proof.
  unfold enum. assert (H : forall (n : nat), NoDup (combine (seq n (List.length l)) l)).
  { induction l as [|a l IH]; intros n; simpl; constructor; auto.
    intros Hin. apply in_combine_l, in_seq in Hin. lia. }
  apply H.
Qed.

Lemma last_in {A} (l : list A) d : l <> [] -> In (last l d) l.
Proof.
  intros H. destruct (exists_last H) as (l' & x & ->). rewrite last_last. apply in_or_app. right. now left.
Qed.

(** The search for a hole fails only then. *)
Lemma search_fails tab set m : 0 < m -> (forall e, In e set -> fst e = m) ->
  find (hole_at tab set m) (seq 0 (List.length tab + m)) = None -> tail_zero tab m.
Proof.
  intros Hm He Hf. set (len := List.length tab) in *.
  assert (H : forall d, 1 <= d <= m -> d <= len /\ exists a, cell tab (len - d) = Some (0, a)).
  { induction d as [d IH] using lt_wf_ind. intros Hd.
    pose proof (find_none _ _ Hf (len + m - d) ltac:(apply in_seq; lia)) as Hn.
    unfold hole_at in Hn. apply andb_false_iff in Hn as [Hn|Hn].
    - exfalso. assert (Ht : forallb (fun e => match nth_error tab (fst e - m + (len + m - d)) with
                                  | Some (Some _) => false | _ => true end) set = true).
      { apply forallb_forall. intros e Hin. rewrite (proj2 (nth_error_None _ _)); auto. rewrite (He _ Hin). fold len. lia. }
      congruence.
    - apply negb_false_iff in Hn.
      destruct (existsb_exists (aligned m (len + m - d)) (enum tab)) as [Hx _]. destruct (Hx Hn) as ([k e] & Hin & Ha).
      assert (Hin' : In (k, e) (filter (aligned m (len + m - d)) (enum tab))) by (apply filter_In; auto).
      apply filter_aligned_in in Hin' as (la & a & -> & Hc & Heq). pose proof (cell_bound _ _ _ Hc) as Hk. fold len in Hk.
      destruct la as [|la].
      + replace (len - d) with k by lia. split; [lia|eauto].
      + exfalso. destruct (IH (d - S la)) as (_ & a' & Hc'); [lia|lia|]. replace (len - (d - S la)) with k in Hc' by lia. congruence. }
  split; [apply (H m); lia|]. intros d Hd. apply (H d Hd).
Qed.

Theorem insert_offsets_ok tab placed set ofs tab' :
  table_inv tab placed -> offsets_ok placed ->
  (forall s o, placed s o -> s <> []) ->
  insert_action_set tab set = GOk (ofs, tab') ->
  Forall (fun e => fst (hd (0, 0) set) <= fst e) set ->
  Forall (fun e => fst e <= fst (last set (0, 0))) set ->
  NoDup set ->
  has_room tab set ->
  offsets_ok (fun s o => placed s o \/ (s = set /\ o = ofs)).
Proof.
  intros [I1 I2] Hok Hne Hins Hmin Hmax Hnd Hroom.
  assert (Hnew : forall s, placed s ofs -> same_set s set).
  { intros s Hs. unfold insert_action_set in Hins.
    destruct set as [|[mn mact] set0] eqn:Eset; [discriminate|]. rewrite <- Eset in *.
    assert (Hmn : fst (hd (0, 0) set) = mn) by (rewrite Eset; reflexivity). rewrite Hmn in *.
    assert (Hfresh : forall i, ofs = (Z.of_nat i - Z.of_nat mn)%Z ->
              existsb (aligned mn i) (enum tab) = false -> False).
    { intros i Ho Hal. rewrite aligned_enum in Hal.
      destruct s as [|[l0 a0] s0] eqn:Es; [now apply (Hne _ _ Hs)|]. rewrite <- Es in *.
      destruct (last_assoc s l0) as [x|] eqn:Ex.
      - destruct (I2 _ _ _ _ Hs Ex) as (k & Hk & Hc). apply (Hal _ _ _ Hc). lia.
      - rewrite last_assoc_none in Ex. apply (Ex a0). rewrite Es. now left. }
    destruct (find (dup_at tab set mn mact) (rev (seq 0 (List.length tab)))) as [i|] eqn:Ef.
    - inversion Hins; subst ofs tab'; clear Hins.
      apply find_some in Ef as [_ Hd]. unfold dup_at in Hd.
      destruct (nth_error tab i) as [[[la0 ac0]|]|]; try discriminate.
      rewrite !andb_true_iff in Hd. destruct Hd as [[[_ _] Hd] Hcnt].
      apply Nat.eqb_eq in Hcnt. rewrite forallb_forall in Hd.
      assert (Hd' : forall e, In e set -> cell tab (fst e - mn + i) = Some e).
      { intros e He. specialize (Hd e He). unfold cell.
        destruct (nth_error tab (fst e - mn + i)) as [[[la' ac']|]|]; try discriminate.
        apply andb_true_iff in Hd as [H1 H2]. apply Nat.eqb_eq in H1, H2.
        destruct e; simpl in *; congruence. }
      rewrite Forall_forall in Hmin.
      assert (Huniq : forall la a a', In (la, a) set -> In (la, a') set -> a' = a).
      { intros la a a' H1 H2. pose proof (Hd' _ H1) as E1. pose proof (Hd' _ H2) as E2.
        simpl in *. congruence. }
      (* the aligned cells are exactly those of the set *)
      assert (Hall : forall k la a, cell tab k = Some (la, a) -> la + i = k + mn -> In (la, a) set).
      { set (img := map (fun e => (fst e - mn + i, Some e)) set).
        assert (Himg : NoDup img).
        { unfold img. clear - Hnd.
          apply FinFun.Injective_map_NoDup; auto. intros a b H. congruence. }
        assert (Hincl : incl img (filter (aligned mn i) (enum tab))).
        { intros [k e] Hin. unfold img in Hin. apply in_map_iff in Hin as ([la a] & Heq & Hin).
          inversion Heq; subst. apply filter_aligned_in. exists la, a.
          pose proof (Hmin _ Hin) as Hge. pose proof (Hd' _ Hin) as Hc. simpl in *.
          repeat split; auto. lia. }
        assert (Hback : incl (filter (aligned mn i) (enum tab)) img).
        { apply NoDup_length_incl; auto. unfold img. rewrite map_length. lia. }
        intros k la a Hc Heq.
        assert (Hin : In (k, Some (la, a)) img).
        { apply Hback, filter_aligned_in. exists la, a. auto. }
        unfold img in Hin. apply in_map_iff in Hin as (e & He & Hin). inversion He; subst. auto. }
      intros la. destruct (last_assoc s la) as [a|] eqn:Ea.
      + destruct (I2 _ _ _ _ Hs Ea) as (k & Hk & Hc).
        assert (Hin : In (la, a) set) by (apply (Hall k); auto; lia).
        symmetry. apply last_assoc_unique; auto. intros a' H'. eapply Huniq; eauto.
      + destruct (last_assoc set la) as [a'|] eqn:Ea'; auto. exfalso.
        pose proof (last_assoc_in _ _ _ Ea') as Hin'. pose proof (Hd' _ Hin') as Hc. simpl in Hc.
        destruct (I1 _ _ _ Hc) as (s2 & o2 & Hs2 & Hk & Hl).
        pose proof (Hmin _ Hin') as Hge. simpl in Hge.
        assert (o2 = (Z.of_nat i - Z.of_nat mn)%Z) by lia. subst o2.
        rewrite (Hok _ _ _ Hs Hs2) in Ea. congruence.
    - exfalso. clear Ef.
      destruct (find (hole_at tab set mn) (seq 0 (List.length tab + fst (last set (0, 0))))) as [i|] eqn:Ef.
      + inversion Hins; subst ofs tab'; clear Hins. apply find_some in Ef as [_ Hd].
        unfold hole_at in Hd. apply andb_true_iff in Hd as [_ Hd].
        apply negb_true_iff in Hd. eapply Hfresh; eauto.
      + inversion Hins; subst ofs tab'; clear Hins.
        destruct Hroom as [Hlt|[H0|Htz]].
        * rewrite Hmn in Hlt.
          set (mx := fst (last set (0, 0))) in *.
          pose proof (find_none _ _ Ef (List.length tab + mx - 1)) as Hn.
          assert (Hin : In (List.length tab + mx - 1) (seq 0 (List.length tab + mx)))
            by (apply in_seq; lia).
          specialize (Hn Hin). unfold hole_at in Hn. apply andb_false_iff in Hn as [Hn|Hn].
          -- assert (Ht : forallb (fun e => match nth_error tab (fst e - mn + (List.length tab + mx - 1)) with
                                  | Some (Some _) => false | _ => true end) set = true).
             { apply forallb_forall. intros e He.
               rewrite (proj2 (nth_error_None _ _)); auto. lia. }
             congruence.
          -- apply negb_false_iff in Hn.
             assert (Hf : existsb (aligned mn (List.length tab + mx - 1)) (enum tab) = false).
             { apply aligned_enum. intros k la a Hc. apply cell_bound in Hc. lia. }
             congruence.
        * rewrite Hmn in H0. subst mn. apply (Hfresh (List.length tab)); auto.
          apply aligned_enum. intros k la a Hc. apply cell_bound in Hc. lia.
        * destruct (Nat.eq_dec mn 0) as [->|Hm0].
          { apply (Hfresh (List.length tab)); auto. apply aligned_enum. intros k la a Hc. apply cell_bound in Hc. lia. }
          destruct (Nat.eq_dec (fst (last set (0, 0))) mn) as [E|NE].
          -- apply Htz. rewrite Hmn. rewrite E in Ef. apply (search_fails _ set); auto; [lia|].
             intros e Hin. rewrite Forall_forall in Hmin, Hmax. pose proof (Hmin e Hin). pose proof (Hmax e Hin). lia.
          -- exfalso. assert (Hlt : mn < fst (last set (0, 0))).
             { rewrite Forall_forall in Hmin. assert (Hnn : set <> []) by (rewrite Eset; discriminate). pose proof (Hmin _ (last_in _ (0, 0) Hnn)). lia. }
             set (mx := fst (last set (0, 0))) in *.
             pose proof (find_none _ _ Ef (List.length tab + mx - 1) ltac:(apply in_seq; lia)) as Hn.
             unfold hole_at in Hn. apply andb_false_iff in Hn as [Hn|Hn].
             ++ assert (Ht : forallb (fun e => match nth_error tab (fst e - mn + (List.length tab + mx - 1)) with
                                  | Some (Some _) => false | _ => true end) set = true).
                { apply forallb_forall. intros e He. rewrite (proj2 (nth_error_None _ _)); auto. lia. }
                congruence.
             ++ apply negb_false_iff in Hn.
                assert (Hf : existsb (aligned mn (List.length tab + mx - 1)) (enum tab) = false).
                { apply aligned_enum. intros k la a Hc. apply cell_bound in Hc. lia. }
                congruence. }
  intros s1 s2 o [H1|[-> ->]] [H2|[-> H2]].
  - eapply Hok; eauto.
  - subst o. apply Hnew; auto.
  - intros la. symmetry. apply Hnew; auto.
  - intros la. reflexivity.
Qed.
