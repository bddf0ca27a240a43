(** The state construction: what [get_state] and [find_states] compute. *)
From Verif Require Import Base Syntax BaseFacts FrontEnd First States Spec WfGrammar FirstFacts ClosureFacts.

(** ** [shift_basis] *)
Definition selects (g : grammar) (sp : nat) (cs : list config) (b : nat) : bool :=
  negb (c_complete (cfg cs b)) && opt_eqb Nat.eqb (kpost g (ckey cs b)) (Some sp).

Lemma selects_true g sp cs b :
  selects g sp cs b = true <-> c_complete (cfg cs b) = false /\ kpost g (ckey cs b) = Some sp.
Proof.
  unfold selects. rewrite andb_true_iff, negb_true_iff. split; intros [H1 H2]; split; auto.
  - destruct (kpost _ _); simpl in *; [apply Nat.eqb_eq in H2; congruence|discriminate].
  - rewrite H2. simpl. apply Nat.eqb_refl.
Qed.

Lemma shift_basis_spec g sp : forall l basis cs basis' cs',
  NoDup (map (ckey cs) l) ->
  (forall b, In b l -> b < List.length cs) ->
  (forall b, In b basis -> b < List.length cs) ->
  (forall b c, In b l -> selects g sp cs b = true -> In c basis -> ckey cs c <> kadv (ckey cs b)) ->
  (forall b c, In b l -> In c basis -> b <> c) ->
  shift_basis g sp l basis cs = (basis', cs') ->
  let sel := filter (selects g sp cs) l in
  basis' = basis ++ seq (List.length cs) (List.length sel) /\
  List.length cs' = List.length cs + List.length sel /\
  (forall i, i < List.length cs ->
     cfg cs' i = if existsb (Nat.eqb i) sel then cfg_set_complete true (cfg cs i) else cfg cs i) /\
  (forall j b, nth_error sel j = Some b ->
     cfg cs' (List.length cs + j) = mkCfg (c_rule (cfg cs b)) (S (c_dot (cfg cs b))) [] [] [b] false).
Proof.
  induction l as [|b l IH]; intros basis cs basis' cs' ND Rl Rb Hk Hne H; cbn [shift_basis] in H.
  - inversion H; subst. simpl. splits; auto.
    + now rewrite app_nil_r.
    + intros j b Hj. destruct j; discriminate.
  - inversion ND as [|? ? Hnin ND']; subst.
    assert (Hskip : selects g sp cs b = false -> shift_basis g sp l basis cs = (basis', cs') ->
       let sel := filter (selects g sp cs) (b :: l) in
       basis' = basis ++ seq (List.length cs) (List.length sel) /\
       List.length cs' = List.length cs + List.length sel /\
       (forall i, i < List.length cs ->
          cfg cs' i = if existsb (Nat.eqb i) sel then cfg_set_complete true (cfg cs i) else cfg cs i) /\
       (forall j b, nth_error sel j = Some b ->
          cfg cs' (List.length cs + j) = mkCfg (c_rule (cfg cs b)) (S (c_dot (cfg cs b))) [] [] [b] false)).
    { intros Hs H'. cbn [filter]. rewrite Hs. apply IH in H'; auto.
      - intros x Hx. apply Rl. now right.
      - intros x c Hx. apply Hk. now right.
      - intros x c Hx. apply Hne. now right. }
    unfold selects in Hskip at 1. rewrite <- shift_sym_kpost in Hskip.
    destruct (c_complete (cfg cs b)) eqn:Ec; [apply Hskip; auto|].
    destruct (shift_sym g (cfg cs b)) as [bsp|] eqn:Es; [|apply Hskip; auto].
    destruct (Nat.eqb_spec bsp sp) as [->|Hsp].
    2:{ apply Hskip; auto. simpl. now apply Nat.eqb_neq. }
    clear Hskip.
    assert (Hsel : selects g sp cs b = true).
    { apply selects_true. split; auto. }
    destruct (add_config cs basis _ _) as [[newcfg basis1] cs1] eqn:Ea.
    apply add_config_spec in Ea as [(Hin & _ & _ & Hkey)|(-> & -> & -> & _)].
    { exfalso. eapply Hk; eauto. now left. }
    set (cs2 := upd _ _ _) in H.
    assert (Hb : b < List.length cs) by (apply Rl; now left).
    assert (Hl2 : List.length cs2 = S (List.length cs)).
    { unfold cs2. rewrite !upd_length, app_length. simpl. lia. }
    assert (Hold : forall i, i < List.length cs -> i <> b -> cfg cs2 i = cfg cs i).
    { intros i Hi Hib. unfold cs2. rewrite !cfg_upd_other by lia. apply cfg_app_l; auto. }
    assert (Hcb : cfg cs2 b = cfg_set_complete true (cfg cs b)).
    { unfold cs2. rewrite cfg_upd_other by lia. rewrite cfg_upd_same by (rewrite app_length; lia).
      now rewrite cfg_app_l. }
    assert (Hnew : cfg cs2 (List.length cs) = mkCfg (c_rule (cfg cs b)) (S (c_dot (cfg cs b))) [] [] [b] false).
    { unfold cs2. rewrite cfg_upd_same by (rewrite upd_length, app_length; simpl; lia).
      rewrite cfg_upd_other by lia. rewrite cfg_app_new. reflexivity. }
    assert (Hkl : forall i, In i l -> i <> b /\ i < List.length cs).
    { intros i Hi. split; [|apply Rl; now right]. intros ->. apply Hnin. now apply in_map. }
    assert (Hcfl : forall i, In i l -> cfg cs2 i = cfg cs i).
    { intros i Hi. apply Hkl in Hi as [? ?]. auto. }
    assert (Hckl : forall i, In i l -> ckey cs2 i = ckey cs i).
    { intros i Hi. unfold ckey. now rewrite Hcfl. }
    assert (Hsl : forall i, In i l -> selects g sp cs2 i = selects g sp cs i).
    { intros i Hi. unfold selects. now rewrite Hckl, Hcfl. }
    assert (Hfl : filter (selects g sp cs2) l = filter (selects g sp cs) l).
    { clear -Hsl. induction l as [|x l IH]; simpl; auto.
      rewrite Hsl by now left. rewrite IH by (intros; apply Hsl; now right). reflexivity. }
    assert (Hbk : forall i, In i basis -> ckey cs2 i = ckey cs i).
    { intros i Hi. unfold ckey. rewrite Hold; auto. intros ->. eapply Hne; eauto. now left. }
    apply IH in H as (H1 & H2 & H3 & H4).
    + rewrite Hfl in *. cbn [filter]. rewrite Hsel. cbn [List.length existsb].
      rewrite Hl2 in *. splits.
      * rewrite H1, <- app_assoc. simpl. reflexivity.
      * lia.
      * intros i Hi. rewrite H3 by lia. destruct (Nat.eqb_spec i b) as [->|Hib]; simpl.
        -- rewrite Hcb. destruct (existsb _ _); reflexivity.
        -- rewrite Hold by auto. reflexivity.
      * intros [|j] x Hj; cbn [nth_error] in Hj.
        -- inversion Hj; subst x. rewrite Nat.add_0_r. rewrite H3 by lia.
           replace (existsb (Nat.eqb (List.length cs)) (filter (selects g sp cs) l)) with false; auto.
           symmetry. apply not_true_is_false. intros He. apply existsb_exists in He as (x & Hx & Hex).
           apply Nat.eqb_eq in Hex. subst x. apply filter_In in Hx as [Hx _]. apply Hkl in Hx. lia.
        -- replace (List.length cs + S j) with (S (List.length cs) + j) by lia.
           rewrite (H4 _ _ Hj). apply nth_error_In in Hj. apply filter_In in Hj as [Hj _].
           rewrite Hcfl by auto. reflexivity.
    + rewrite (map_ext_in _ (ckey cs)); auto.
    + intros i Hi. rewrite Hl2. apply Hkl in Hi. lia.
    + intros i Hi. rewrite Hl2. apply in_app_or in Hi as [Hi|[<-|[]]]; [apply Rb in Hi|]; lia.
    + intros i c Hi Hsi Hc. rewrite (Hsl i) in Hsi by auto. rewrite (Hckl i) by auto.
      apply in_app_or in Hc as [Hc|[<-|[]]].
      * rewrite (Hbk c) by auto. apply Hk; auto. now right.
      * unfold ckey at 1. rewrite Hnew. simpl. intros He. apply Hnin.
        apply in_map_iff. exists i. split; auto. unfold kadv, ckey in *. simpl in He.
        inversion He. congruence.
    + intros i c Hi Hc. apply in_app_or in Hc as [Hc|[<-|[]]].
      * apply Hne; auto. now right.
      * apply Hkl in Hi. lia.
Qed.

(** ** [merge_bplp] *)
Lemma merge_bplp_spec cs : forall l cs',
  (forall x y, In (x, y) l -> y < List.length cs) ->
  (forall x y, In (x, y) l -> ~ In x (map snd l)) ->
  fold_left (fun cs '(x, y) => upd cs y (cfg_add_bplp (c_bplp (cfg cs x)))) l cs = cs' ->
  cgrow cs cs' /\ List.length cs' = List.length cs /\
  (forall i, ckey cs' i = ckey cs i /\ c_fws (cfg cs' i) = c_fws (cfg cs i) /\
     c_fplp (cfg cs' i) = c_fplp (cfg cs i) /\ c_complete (cfg cs' i) = c_complete (cfg cs i)) /\
  (forall x y, In (x, y) l -> incl (c_bplp (cfg cs x)) (c_bplp (cfg cs' y))) /\
  (forall y j, In j (c_bplp (cfg cs' y)) -> In j (c_bplp (cfg cs y)) \/
     exists x, In (x, y) l /\ In j (c_bplp (cfg cs x))).
Proof.
  intros l. revert cs. induction l as [|[x y] l IH]; intros cs cs' Hr Hd H; cbn [fold_left] in H.
  - subst. splits; auto using cgrow_refl. contradiction.
  - set (cs1 := upd cs y _) in *.
    assert (Hy : y < List.length cs) by (eapply Hr; now left).
    assert (Hcy : cfg cs1 y = cfg_add_bplp (c_bplp (cfg cs x)) (cfg cs y)) by (apply cfg_upd_same; auto).
    assert (Ho : forall i, i <> y -> cfg cs1 i = cfg cs i) by (intros; apply cfg_upd_other; auto).
    assert (Hl1 : List.length cs1 = List.length cs) by apply upd_length.
    assert (Hx : forall x' y', In (x', y') l -> x' <> y).
    { intros x' y' Hin ->. eapply (Hd y y'); [now right|]. now left. }
    apply IH in H as (G & L & Hs & H1 & H2).
    + splits; try congruence.
      * eapply cgrow_trans; [|exact G]. apply cgrow_upd; auto. intros _. splits; try apply incl_refl.
        intros b Hb. simpl. apply in_or_app. now left.
      * intros i. destruct (Hs i) as (E1 & E2 & E3 & E4). rewrite E1, E2, E3, E4.
        unfold ckey. destruct (Nat.eq_dec i y) as [->|Hi]; [rewrite Hcy|rewrite Ho by auto]; auto.
      * intros x' y' [Heq|Hin].
        -- inversion Heq; subst x' y'. intros j Hj. apply (cg_bplp _ _ G); [lia|].
           rewrite Hcy. simpl. apply in_or_app. now right.
        -- pose proof (H1 x' y' Hin) as Hinc. rewrite Ho in Hinc by eauto. exact Hinc.
      * intros y' j Hj. apply H2 in Hj as [Hj|(x' & Hin & Hj)].
        -- destruct (Nat.eq_dec y' y) as [->|Hi].
           ++ rewrite Hcy in Hj. simpl in Hj. apply in_app_or in Hj as [Hj|Hj]; auto.
              right. exists x. split; [now left|auto].
           ++ rewrite Ho in Hj by auto. auto.
        -- right. exists x'. split; [now right|]. rewrite Ho in Hj by eauto. auto.
    + intros x' y' Hin. rewrite Hl1. eapply Hr. right; eauto.
    + intros x' y' Hin Hi. eapply (Hd x' y'); [now right|]. simpl. auto.
Qed.

Lemma same_keys_true cs a b : same_keys cs a b = true <-> map (ckey cs) a = map (ckey cs) b.
Proof.
  unfold same_keys. rewrite andb_true_iff, Nat.eqb_eq. split.
  - intros [Hl Hf]. revert b Hl Hf. induction a as [|x a IH]; intros [|y b] Hl Hf; simpl in *; try discriminate; auto.
    apply andb_true_iff in Hf as [H1 H2]. apply key_eqb_true in H1. simpl in H1. f_equal; auto.
  - intros H. revert b H. induction a as [|x a IH]; intros [|y b] H; simpl in *; try discriminate; auto.
    inversion H. destruct (IH b) as [Hq1 Hq2]; auto. split; [congruence|]. apply andb_true_iff. split; auto.
    apply key_eqb_true. simpl; unfold ckey in *; congruence.
Qed.

Lemma map_eq_combine {A B} (f : A -> B) a b : map f a = map f b ->
  (forall x, In x a -> exists y, In (x, y) (combine a b)) /\
  (forall y, In y b -> exists x, In (x, y) (combine a b)) /\
  (forall x y, In (x, y) (combine a b) -> f x = f y).
Proof.
  revert b. induction a as [|x a IH]; intros [|y b] H; simpl in *; try discriminate.
  - splits; contradiction.
  - inversion H as [[H1 H2]]. destruct (IH b H2) as (I1 & I2 & I3). splits.
    + intros x' [<-|Hx]; [exists y; now left|]. destruct (I1 x' Hx) as [y' ?]. exists y'. now right.
    + intros y' [<-|Hy]; [exists x; now left|]. destruct (I2 y' Hy) as [x' ?]. exists x'. now right.
    + intros x' y' [Heq|Hin]; [inversion Heq; congruence|auto].
Qed.

Lemma reset_status_spec l : forall cs,
  List.length (reset_status cs l) = List.length cs /\
  forall i, ckey (reset_status cs l) i = ckey cs i /\
    c_fws (cfg (reset_status cs l) i) = c_fws (cfg cs i) /\
    c_fplp (cfg (reset_status cs l) i) = c_fplp (cfg cs i) /\
    c_bplp (cfg (reset_status cs l) i) = c_bplp (cfg cs i) /\
    (In i l -> c_complete (cfg (reset_status cs l) i) = false) /\
    (~ In i l -> cfg (reset_status cs l) i = cfg cs i).
Proof.
  induction l as [|c l IH]; intros cs; unfold reset_status; cbn [fold_left].
  - split; auto. intros i. splits; auto. contradiction.
  - fold (reset_status (upd cs c (cfg_set_complete false)) l).
    set (cs1 := upd cs c (cfg_set_complete false)). destruct (IH cs1) as [IH1 IH2]. split.
    { rewrite IH1. apply upd_length. }
    intros i. destruct (IH2 i) as (E1 & E2 & E3 & E4 & E5 & E6). rewrite E1, E2, E3, E4.
    assert (Hc : cfg cs1 i = if (c =? i) && (i <? List.length cs) then cfg_set_complete false (cfg cs i) else cfg cs i)
      by apply cfg_upd.
    splits.
    + unfold ckey. rewrite Hc. destruct (_ && _); auto.
    + rewrite Hc. destruct (_ && _); auto.
    + rewrite Hc. destruct (_ && _); auto.
    + rewrite Hc. destruct (_ && _); auto.
    + intros Hi. destruct (in_dec Nat.eq_dec i l) as [Hi'|Hi']; auto. destruct Hi as [->|Hi]; [|contradiction].
      rewrite E6, Hc, Nat.eqb_refl by auto. simpl. destruct (i <? List.length cs) eqn:El; auto.
      apply Nat.ltb_ge in El. unfold cfg. rewrite nth_overflow by auto. reflexivity.
    + intros Hi. rewrite E6, Hc by (intros ?; apply Hi; now right).
      destruct (Nat.eqb_spec c i); auto. subst. exfalso. apply Hi. now left.
Qed.
