(** Data types: the type of every symbol, the numbers of the YYMinorType variants, and
    that the generated patterns always match (C32, C07). *)
From Verif Require Import Base Syntax BaseFacts FrontEnd First States Actions Tables Runtime User
  PackFacts Spec WfGrammar CompFacts TabFacts LookFacts PipeFacts RunFacts SoundFacts SafeFacts.
Open Scope nat_scope. Open Scope list_scope.

Lemma ty_eqb_ok a b : ty_eqb a b = true <-> a = b.
Proof.
  split; [|intros ->; apply ty_eqb_refl]. revert b. induction a as [s| |a1 IH1 a2 IH2|a IH]; intros [s'| |b1 b2|b] H; try discriminate; auto.
  - apply String.eqb_eq in H. now subst.
  - cbn in H. apply andb_true_iff in H as [H1 H2]. f_equal; auto.
  - cbn in H. f_equal; auto.
Qed.

Definition orelse {A} (a b : option A) : option A := match a with Some _ => a | None => b end.
Definition wild (g : grammar) (i : nat) : bool := opt_eqb Nat.eqb (g_wild g) (Some i).
(** The declared type of a symbol, or else the default type; the wildcard has none, and a
    class has the type of its first member. *)
Definition own_type (g : grammar) (i : nat) : option ty :=
  if wild g i then None else orelse (sy_type (gsym g i)) (f_default_type (g_fe g)).
Definition dtype (g : grammar) (i : nat) : option ty :=
  if wild g i then None
  else match sy_kind (gsym g i) with
       | KMulti (c :: _) => orelse (own_type g c) (f_default_type (g_fe g))
       | _ => own_type g i
       end.

Lemma wild_iff g i : wild g i = true <-> g_wild g = Some i.
Proof. unfold wild, opt_eqb. destruct (g_wild g) as [w|]; split; try discriminate. - intros H. apply Nat.eqb_eq in H. now subst. - injection 1 as ->. apply Nat.eqb_refl. Qed.

Lemma seq_nth_err m : forall k j, nth_error (seq k m) j = None \/ nth_error (seq k m) j = Some (k + j).
Proof. induction m as [|m IH]; intros k [|j]; cbn; auto. { destruct (IH (S k) j) as [E|E]; rewrite E; auto. right. f_equal. lia. } Qed.

Section Types.
Context (g : grammar) (W : wf_grammar g) (FL : flat g) (HW : forall w, g_wild g = Some w -> has_type g w = false).
Notation n := (List.length (g_syms g)).

Record tinv (k : nat) (m : typemap) (syms : list symbol) (dts : list nat) : Prop := {
  ti_dts : List.length dts = k;
  ti_len : List.length syms = n;
  ti_kind : forall i, sy_kind (nth i syms dummy_sym) = sy_kind (gsym g i) /\ sy_name (nth i syms dummy_sym) = sy_name (gsym g i) /\ sy_fb (nth i syms dummy_sym) = sy_fb (gsym g i);
  ti_done : forall i, i < k -> i < n -> sy_type (nth i syms dummy_sym) = dtype g i;
  ti_todo : forall i, k <= i -> sy_type (nth i syms dummy_sym) = sy_type (gsym g i);
  ti_num : forall j t x, nth_error m j = Some (t, x) -> x = S j;
  ti_uniq : NoDup (map fst m);
  ti_map : forall i, i < k -> i < n -> match dtype g i with None => nth i dts 0 = 0 | Some t => In (t, nth i dts 0) m end;
  ti_src : forall t x, In (t, x) m -> exists i, i < k /\ i < n /\ dtype g i = Some t /\ nth i dts 0 = x }.

Lemma type_find_some m t x : type_find m t = Some x -> In (t, x) m.
Proof.
  unfold type_find. destruct (find _ m) as [[t' x']|] eqn:E; [|discriminate]. intros H. injection H as <-. apply find_some in E as [E1 E2]. apply ty_eqb_ok in E2. cbn in E2. now subst.
Qed.
Lemma type_find_none m t : type_find m t = None -> forall x, ~ In (t, x) m.
Proof.
  unfold type_find. destruct (find _ m) as [[t' x']|] eqn:E; [discriminate|]. intros _ x Hx. apply (find_none _ _ E) in Hx. cbn in Hx. now rewrite ty_eqb_refl in Hx.
Qed.
Lemma uniq_snd {A B} (m : list (A * B)) t x y : NoDup (map fst m) -> In (t, x) m -> In (t, y) m -> x = y.
Proof.
  induction m as [|[a b] m IH]; intros ND Hx Hy; [destruct Hx|]. cbn in ND. inversion ND as [|? ? Hni ND']; subst. destruct Hx as [E|Hx], Hy as [E'|Hy]; try congruence; auto.
  - injection E as -> ->. exfalso. apply Hni, in_map_iff. exists (t, y). auto.
  - injection E' as -> ->. exfalso. apply Hni, in_map_iff. exists (t, x). auto.
Qed.

Lemma own_wild i : wild g i = true -> sy_type (gsym g i) = None.
Proof. intros H. apply wild_iff in H. specialize (HW _ H). unfold has_type, opt_is_some in HW. now destruct (sy_type (gsym g i)). Qed.
Lemma nth_upd_type syms i o j : i < List.length syms -> nth j (upd syms i (sym_set_type o)) dummy_sym = if j =? i then sym_set_type o (nth i syms dummy_sym) else nth j syms dummy_sym.
Proof.
  intros L. destruct (Nat.eqb_spec j i) as [->|Hne]; [now rewrite nth_upd_same|]. rewrite nth_upd_other; auto.
Qed.

Lemma class_type c l i : kind_at g i = Some (KMulti (c :: l)) -> c < i /\ c < n /\ sy_kind (gsym g c) = KTerm.
Proof.
  intros H. assert (Hc : is_term g c) by (eapply FL; [exact H|now left]). destruct (wg_multi g W _ _ c H) as (Lc & _); [now left|].
  pose proof (proj1 (wg_term g W c Lc) Hc) as L1. splits; auto; [|now apply kind_at_gsym].
  assert (Li : i < n) by (unfold kind_at in H; apply nth_error_Some; destruct (nth_error (g_syms g) i); [discriminate|discriminate H]).
  destruct (Nat.lt_ge_cases i (g_nterm g)) as [L2|L2]; [|lia]. apply (wg_term g W i Li) in L2. congruence.
Qed.

Lemma type_symbol_step k m syms dts m' syms' dts' : k < n -> tinv k m syms dts -> type_symbol g (m, syms, dts) k = GOk (m', syms', dts') -> tinv (S k) m' syms' dts'.
Proof.
  intros Lk I H. unfold type_symbol in H. change (opt_eqb Nat.eqb (g_wild g) (Some k)) with (wild g k) in H.
  destruct (wild g k) eqn:Ew.
  - injection H as <- <- <-. assert (Ed : dtype g k = None) by (unfold dtype; now rewrite Ew). constructor; try apply I.
    + rewrite app_length, (ti_dts _ _ _ _ I). simpl. lia.
    + intros i Hi Hn. destruct (Nat.eq_dec i k) as [->|Hne]; [|apply (ti_done _ _ _ _ I); lia]. rewrite (ti_todo _ _ _ _ I) by lia. rewrite Ed. now apply own_wild.
    + intros i Hi. apply (ti_todo _ _ _ _ I). lia.
    + intros i Hi Hn. destruct (Nat.eq_dec i k) as [->|Hne].
      * rewrite Ed, app_nth2, (ti_dts _ _ _ _ I), Nat.sub_diag by (rewrite (ti_dts _ _ _ _ I); lia). reflexivity.
      * rewrite app_nth1 by (rewrite (ti_dts _ _ _ _ I); lia). apply (ti_map _ _ _ _ I); lia.
    + intros t x Hx. destruct (ti_src _ _ _ _ I t x Hx) as (i & H1 & H2 & H3 & H4). exists i. splits; auto. rewrite app_nth1 by (rewrite (ti_dts _ _ _ _ I); lia). auto.
  - apply gbind_ok in H as (dt0 & Hdt & H). set (dt := match dt0 with Some t => Some t | None => f_default_type (g_fe g) end) in *.
    assert (Ed : dt = dtype g k).
    { unfold dt, dtype. rewrite Ew. destruct (ti_kind _ _ _ _ I k) as (EK & _). rewrite EK in Hdt. destruct (sy_kind (gsym g k)) as [| |ms] eqn:Ek.
      - injection Hdt as <-. rewrite (ti_todo _ _ _ _ I) by lia. unfold own_type. rewrite Ew. unfold orelse. now destruct (sy_type (gsym g k)).
      - injection Hdt as <-. rewrite (ti_todo _ _ _ _ I) by lia. unfold own_type. rewrite Ew. unfold orelse. now destruct (sy_type (gsym g k)).
      - destruct ms as [|c l]; [discriminate|]. destruct (c =? k); [discriminate|]. injection Hdt as <-.
        destruct (class_type c l k) as (H1 & H2 & H3); [unfold kind_at; rewrite (nth_error_nth' _ dummy_sym Lk); cbn; f_equal; exact Ek|].
        rewrite (ti_done _ _ _ _ I) by lia. unfold dtype. rewrite H3. unfold own_type, orelse. destruct (wild g c); auto. destruct (sy_type (gsym g c)); auto. now destruct (f_default_type (g_fe g)). }
    assert (Lk' : k < List.length syms) by (rewrite (ti_len _ _ _ _ I); auto).
    assert (C : forall m1 x, (forall t y, In (t, y) m -> In (t, y) m1) -> (forall j t y, nth_error m1 j = Some (t, y) -> y = S j) -> NoDup (map fst m1) ->
      (match dt with None => x = 0 | Some t => In (t, x) m1 end) -> (forall t y, In (t, y) m1 -> In (t, y) m \/ dt = Some t /\ y = x) ->
      tinv (S k) m1 (upd syms k (sym_set_type dt)) (dts ++ [x])).
    { intros m1 x C1 C2 C3 C4 C5. constructor; auto.
      - rewrite app_length, (ti_dts _ _ _ _ I). simpl. lia.
      - rewrite upd_length. apply I.
      - intros i. rewrite nth_upd_type by auto. destruct (ti_kind _ _ _ _ I i) as (K1 & K2 & K3). destruct (Nat.eqb_spec i k) as [->|]; auto.
      - intros i Hi Hn. rewrite nth_upd_type by auto. destruct (Nat.eqb_spec i k) as [->|Hne]; [now rewrite <- Ed|apply (ti_done _ _ _ _ I); lia].
      - intros i Hi. rewrite nth_upd_type by auto. destruct (Nat.eqb_spec i k) as [->|Hne]; [lia|apply (ti_todo _ _ _ _ I); lia].
      - intros i Hi Hn. destruct (Nat.eq_dec i k) as [->|Hne].
        + rewrite app_nth2, (ti_dts _ _ _ _ I), Nat.sub_diag by (rewrite (ti_dts _ _ _ _ I); lia). cbn. now rewrite <- Ed.
        + rewrite app_nth1 by (rewrite (ti_dts _ _ _ _ I); lia). assert (Hi' : i < k) by lia. pose proof (ti_map _ _ _ _ I i Hi' Hn) as Hm. destruct (dtype g i); auto.
      - intros t y Hy. apply C5 in Hy as [Hy|[E ->]].
        + destruct (ti_src _ _ _ _ I t y Hy) as (i & H1 & H2 & H3 & H4). exists i. splits; auto. rewrite app_nth1 by (rewrite (ti_dts _ _ _ _ I); lia). auto.
        + exists k. splits; auto; [now rewrite <- Ed|]. rewrite app_nth2, (ti_dts _ _ _ _ I), Nat.sub_diag by (rewrite (ti_dts _ _ _ _ I); lia). reflexivity. }
    destruct dt as [t|].
    + destruct (type_find m t) as [x|] eqn:Et; injection H as <- <- <-.
      * apply C; auto; try apply I. now apply type_find_some.
      * apply C.
        -- intros t' y Hy. apply in_app_iff. auto.
        -- intros j t' y Hj. destruct (Nat.lt_ge_cases j (List.length m)) as [L|L]; [rewrite nth_error_app1 in Hj by auto; eapply (ti_num _ _ _ _ I); eauto|].
           rewrite nth_error_app2 in Hj by auto. destruct (j - List.length m) as [|q] eqn:Eq; [|destruct q; discriminate]. injection Hj as <- <-. lia.
        -- rewrite map_app. apply nodup_app_iff. splits; [apply I|cbn; constructor; [intros []|constructor]|]. intros t' H1 [<-|[]]. apply in_map_iff in H1 as ([t1 y] & E1 & H1). cbn in E1. subst t1. now apply (type_find_none _ _ Et y).
        -- apply in_app_iff. right. now left.
        -- intros t' y Hy. apply in_app_iff in Hy as [Hy|[E|[]]]; auto. injection E as <- <-. auto.
    + injection H as <- <- <-. apply C; auto; apply I.
Qed.

Lemma type_symbols_inv m syms dts : type_symbols g = GOk (m, syms, dts) -> tinv n m syms dts.
Proof.
  unfold type_symbols. intros H.
  assert (HG : forall l k st st', (forall j, nth_error l j = None \/ nth_error l j = Some (k + j)) -> k + List.length l <= n ->
    tinv k (fst (fst st)) (snd (fst st)) (snd st) -> gfold (type_symbol g) l st = GOk st' -> tinv (k + List.length l) (fst (fst st')) (snd (fst st')) (snd st')).
  { induction l as [|i l IH]; intros k st st' Hl Ln I HF; cbn [gfold] in HF; [injection HF as <-; now rewrite Nat.add_0_r|].
    apply gbind_ok in HF as (st1 & H1 & HF). destruct (Hl 0) as [|E]; [discriminate|]. injection E as ->. rewrite Nat.add_0_r in *. destruct st as [[m0 s0] d0], st1 as [[m1 s1] d1].
    simpl List.length in *. apply (type_symbol_step k) in H1; auto; [|lia]. replace (k + S (List.length l)) with (S k + List.length l) by lia. apply (IH (S k) (m1, s1, d1)); auto; [|lia].
    intros j. destruct (Hl (S j)) as [E|E]; cbn in E; auto. right. rewrite E. f_equal. lia. }
  specialize (HG (seq 0 n) 0 ([], g_syms g, []) (m, syms, dts)). rewrite seq_length in HG. apply HG; auto.
  - intros j. apply seq_nth_err.
  - constructor; cbn; auto; try (intros; lia).
    + intros j t x Hj. now destruct j.
    + constructor.
Qed.

(** The numbers of two symbols' variants are equal exactly when their types are. *)
Theorem same_number m syms dts i j : type_symbols g = GOk (m, syms, dts) -> i < n -> j < n -> (nth i dts 0 = nth j dts 0 <-> dtype g i = dtype g j).
Proof.
  intros H Hi Hj. apply type_symbols_inv in H. pose proof (ti_map _ _ _ _ H i Hi Hi) as Mi. pose proof (ti_map _ _ _ _ H j Hj Hj) as Mj.
  assert (HN : forall t x, In (t, x) m -> exists k, nth_error m k = Some (t, x) /\ x = S k).
  { intros t x Hx. apply In_nth_error in Hx as [k Hk]. exists k. split; auto. eapply (ti_num _ _ _ _ H); eauto. }
  destruct (dtype g i) as [ti|], (dtype g j) as [tj|]; split; intros E; try congruence.
  - apply HN in Mi as (a & Ha & Ea), Mj as (b & Hb & Eb). f_equal. assert (a = b) by lia. subst b. congruence.
  - injection E as ->. eapply uniq_snd; eauto. apply H.
  - apply HN in Mi as (a & _ & Ea). lia.
  - apply HN in Mj as (b & _ & Eb). lia.
Qed.
Theorem zero_number m syms dts i : type_symbols g = GOk (m, syms, dts) -> i < n -> (nth i dts 0 = 0 <-> dtype g i = None).
Proof.
  intros H Hi. apply type_symbols_inv in H. pose proof (ti_map _ _ _ _ H i Hi Hi) as Mi. destruct (dtype g i) as [t|]; split; try discriminate; auto.
  intros E. apply In_nth_error in Mi as [k Hk]. apply (ti_num _ _ _ _ H) in Hk. lia.
Qed.
End Types.

(** ** The generated patterns *)
Definition aliased (g : grammar) (Y : nat) : Prop := exists ru, In ru (g_rules g) /\ In (Y, true) (r_rhs ru).
(** The code the generator writes by itself uses exactly one value. *)
Definition auto_one (g : grammar) : Prop := forall ru, In ru (g_rules g) -> r_code ru = CAuto \/ r_code ru = COptSome -> List.length (filter snd (r_rhs ru)) = 1.

(** Side conditions on types that the macro does not check (see Refutations.v): a token that
    falls back to a token without data has no data; the wildcard is in no class that is used
    with an alias; and if the start symbol has no type, no symbol has type [()]. *)
Record type_sane (g : grammar) : Prop := {
  ts_fb : forall i s c, nth_error (g_syms g) i = Some s -> sy_fb s = Some c -> dtype g c = None -> dtype g i = None;
  ts_wild : forall w Y ms, g_wild g = Some w -> kind_at g Y = Some (KMulti ms) -> In w ms -> ~ aliased g Y;
  ts_start : dtype g (g_start g) <> None \/ forall i, i < List.length (g_syms g) -> dtype g i <> Some TyUnit }.

Lemma gfold_unit {A} (F : unit -> A -> gres unit) l : gfold F l tt = GOk tt -> forall a, In a l -> exists u, F tt a = GOk u.
Proof. induction l as [|b l IH]; cbn [gfold]; intros H a Ha; [destruct Ha|]. apply gbind_ok in H as ([] & H1 & H). destruct Ha as [->|Ha]; eauto. Qed.
Lemma gfold_unit2 {A S} (F : S -> A -> gres S) l : forall s s', gfold F l s = GOk s' -> forall a, In a l -> exists s1 s2, F s1 a = GOk s2.
Proof. induction l as [|b l IH]; cbn [gfold]; intros s s' H a Ha; [destruct Ha|]. apply gbind_ok in H as (s1 & H1 & H). destruct Ha as [->|Ha]; eauto. Qed.
Lemma fb_checked syms dts l i c : fallback_table syms dts = GOk l -> sy_fb (nth i syms dummy_sym) = Some c -> nth c dts 0 = 0 \/ nth c dts 0 = nth i dts 0.
Proof.
  unfold fallback_table. intros H Hc.
  assert (Li : i < List.length syms) by (destruct (Nat.lt_ge_cases i (List.length syms)) as [L|L]; auto; rewrite nth_overflow in Hc by auto; discriminate).
  assert (Hin : In i (seq 0 (match rposition (fun s => opt_is_some (sy_fb s)) syms with Some n => S n | None => 0 end))).
  { apply in_seq. split; [lia|]. destruct (rposition (fun s => opt_is_some (sy_fb s)) syms) as [k|] eqn:Ek.
    - apply rposition_some in Ek as (a & _ & _ & Hk). destruct (Nat.lt_ge_cases k i) as [L|L]; [|lia].
      specialize (Hk i (nth i syms dummy_sym) L (nth_error_nth' _ _ Li)). cbn in Hk. rewrite Hc in Hk. discriminate.
    - pose proof (rposition_none _ _ Ek _ (nth_In _ dummy_sym Li)) as Hk. cbn in Hk. rewrite Hc in Hk. discriminate. }
  destruct (gfold_unit2 _ _ _ _ H i Hin) as (s1 & s2 & H1). cbn in H1. rewrite Hc in H1. destruct (_ || _) eqn:E; [|discriminate]. apply orb_true_iff in E as [E|E]; apply Nat.eqb_eq in E; auto.
Qed.

Section Pat.
Context (g : grammar) (p p3 p4 : pst) (t : tables) (P : Pipe g p p3 p4 t).
Let W := pp_wf _ _ _ _ _ P.
Let FL := pp_flat _ _ _ _ _ P.
Notation n := (List.length (g_syms g)).
Notation nr := (List.length (g_rules g)).
Hypothesis TS : type_sane g.
Hypothesis A1 : auto_one g.

Lemma gen_types : exists m syms, type_symbols g = GOk (m, syms, t_dts t) /\ tinv g n m syms (t_dts t) /\ (forall w, g_wild g = Some w -> has_type g w = false) /\
  t_typed t = map (fun s => opt_is_some (sy_type s)) syms /\ t_root t = type_find m (match sy_type (nth (g_start g) syms dummy_sym) with Some ty => ty | None => TyUnit end) /\
  fallback_table syms (t_dts t) = GOk (t_fallback t) /\ gmapM (translate_code g (t_dts t)) (g_rules g) = GOk (t_rules t).
Proof.
  destruct (pp_gen _ _ _ _ _ P) as (k & m & sy & dt & G & _). exists m, sy. pose proof (gn_types _ _ _ _ _ _ _ G) as HT. pose proof (gn_dts _ _ _ _ _ _ _ G) as ED.
  rewrite ED. splits; auto; try apply G. apply type_symbols_inv; auto. apply G.
Qed.
Lemma same_dt i j : i < n -> j < n -> (dt_of t i = dt_of t j <-> dtype g i = dtype g j).
Proof. intros Hi Hj. destruct gen_types as (m & sy & HT & _ & HW & _). unfold dt_of. eapply same_number; eauto. Qed.
Lemma zero_dt i : i < n -> (dt_of t i = 0 <-> dtype g i = None).
Proof. intros Hi. destruct gen_types as (m & sy & HT & _ & HW & _). unfold dt_of. eapply zero_number; eauto. Qed.
Lemma typed_iff i : i < n -> typed t i = opt_is_some (dtype g i).
Proof.
  intros Hi. destruct gen_types as (m & sy & _ & I & _ & E & _). unfold typed. rewrite E, (nth_indep _ false (opt_is_some (sy_type dummy_sym))) by (rewrite map_length, (ti_len _ _ _ _ _ I); auto).
  change (opt_is_some (sy_type dummy_sym)) with ((fun s => opt_is_some (sy_type s)) dummy_sym). rewrite map_nth. cbn. now rewrite (ti_done _ _ _ _ _ I).
Qed.

(** A token has the type of what it falls back to. *)
Lemma fb_type i s c : nth_error (g_syms g) i = Some s -> sy_fb s = Some c -> dtype g i = dtype g c.
Proof.
  intros Hs Hc. assert (Li : i < n) by (apply nth_error_Some; congruence). destruct (wg_fb g W _ _ _ Hs Hc) as (_ & Lc & _).
  destruct gen_types as (m & sy & HT & I & HW & _ & _ & HF & _).
  destruct (dtype g c) as [tc|] eqn:Ec; [|eapply ts_fb; eauto].
  assert (Hchk : (dt_of t c =? 0) || (dt_of t c =? dt_of t i) = true).
  { unfold dt_of. destruct (fb_checked _ _ _ i c HF) as [H|H]; auto.
    - destruct (ti_kind _ _ _ _ _ I i) as (_ & _ & ->). unfold gsym. now rewrite (nth_error_nth _ _ _ Hs).
    - now rewrite H. - rewrite H, Nat.eqb_refl. apply orb_true_r. }
  apply orb_true_iff in Hchk as [H|H]; apply Nat.eqb_eq in H.
  - apply zero_dt in H; auto. congruence.
  - apply same_dt in H; auto. congruence.
Qed.
Lemma falls_type a b : falls_to g a b -> dtype g a = dtype g b.
Proof. induction 1 as [|b s c H IH Hs Hf]; auto. rewrite IH. eapply fb_type; eauto. Qed.

Lemma rule_checked ru Y : In ru (g_rules g) -> In (Y, true) (r_rhs ru) -> g_wild g <> Some Y /\
  forall ms, kind_at g Y = Some (KMulti ms) -> forall o, In o (tl ms) -> dt_of t Y = dt_of t o.
Proof.
  intros Hru HY. destruct gen_types as (_ & _ & _ & _ & _ & _ & _ & _ & HR). apply In_nth_error in Hru as [r Hr].
  apply (gmap_nth (translate_code g (t_dts t)) dummy_rule dummy_rt) in HR as (L & _ & HR). simpl in HR. assert (Lr : r < nr) by (apply nth_error_Some; congruence).
  specialize (HR r Lr). rewrite (nth_error_nth _ _ _ Hr) in HR. unfold translate_code in HR.
  apply gbind_ok in HR as ([] & H1 & HR). apply gbind_ok in HR as ([] & H2 & _). split.
  - intros Hw. destruct (gfold_unit _ _ H2 _ HY) as [? H]. cbn in H. rewrite Hw in H. cbn in H. rewrite Nat.eqb_refl in H. discriminate.
  - intros ms Hk o Ho. destruct (gfold_unit _ _ H1 _ HY) as [? H]. cbn [fst snd] in H. rewrite (kind_at_gsym _ _ _ Hk) in H. destruct (forallb _ (tl ms)) eqn:E; [|discriminate].
    rewrite forallb_forall in E. apply E in Ho. now apply Nat.eqb_eq in Ho.
Qed.

(** What a token matches with an alias has the token's type. *)
Lemma match_type a Y : a < n -> Y < n -> tok_match g a Y -> aliased g Y -> dtype g Y = dtype g a.
Proof.
  intros La LY HM (ru & Hru & HY). destruct (rule_checked ru Y Hru HY) as [Hnw HC].
  assert (HB : forall b, member g b Y -> b < n -> g_wild g <> Some b \/ b = Y -> dtype g Y = dtype g b).
  { intros b [[-> _]|(ms & Hk & Hin)] Lb Hw; auto. destruct ms as [|c l]; [destruct Hin|]. destruct Hin as [->|Hin].
    - destruct Hw as [Hw|Hw].
      + destruct (class_type g W FL b l Y Hk) as (_ & _ & Kb). unfold dtype. assert (E : wild g Y = false) by (destruct (wild g Y) eqn:E; auto; apply wild_iff in E; contradiction).
        rewrite E, (kind_at_gsym _ _ _ Hk), Kb. assert (E2 : wild g b = false) by (destruct (wild g b) eqn:E2; auto; apply wild_iff in E2; contradiction).
        unfold own_type. rewrite E2. unfold orelse. rewrite E2 || idtac. destruct (sy_type (gsym g b)); auto. now destruct (f_default_type (g_fe g)).
      + subst b. destruct (class_type g W FL Y l Y Hk). lia.
    - apply same_dt; auto. eapply HC; eauto. }
  destruct HM as [(b & Hf & Hb)|(w & Hw & Hb)].
  - rewrite (falls_type _ _ Hf). assert (Lb : b < n).
    { destruct Hb as [[-> Hb]|(ms & Hk & Hin)]; auto. now destruct (wg_multi g W _ _ _ Hk Hin). }
    destruct (Nat.eq_dec b Y) as [->|Hne]; auto. apply HB; auto. left. intros Hw. destruct Hb as [[-> _]|(ms & Hk & Hin)]; [contradiction|].
    apply (ts_wild g TS b Y ms Hw Hk Hin). now exists ru.
  - exfalso. destruct Hb as [[-> _]|(ms & Hk & Hin)]; [contradiction|]. apply (ts_wild g TS w Y ms Hw Hk Hin). now exists ru.
Qed.

(** ** Values on the stack *)
Section Vals.
Context {V X E : Type} (sm : sem V X E) (has : ty -> V -> bool).
Notation rs i := (grule g i).

Definition vfits (o : option ty) (v : V) : Prop := match o with Some ty => has ty v = true | None => True end.
Definition args_fit (ru : rule) (args : list V) : Prop := Forall2 vfits (map (fun q => dtype g (fst q)) (filter snd (r_rhs ru))) args.
(** The blocks are well typed: given arguments of the declared types they give values of the
    declared type (what the Rust compiler checks). *)
Record code_ok : Prop := {
  ck_rule : forall ru args x x' v, In ru (g_rules g) -> args_fit ru args -> run_code sm (r_code ru) args x = Some (x', inl v) -> vfits (dtype g (r_lhs ru)) v;
  ck_syn : t_err t <> 0 -> forall k l x x' v, u_syntax sm k l x = (x', inl v) -> vfits (dtype g (t_err t)) v }.
Hypothesis CK : code_ok.

Definition stacked (Y : nat) (m : minor V) : Prop :=
  Y < n /\ (kind_at g Y = Some KNonTerm \/ aliased g Y -> fst m = dt_of t Y /\ vfits (dtype g Y) (snd m)).
Definition tokval (a : nat) (m : minor V) : Prop := a < n /\ fst m = dt_of t a /\ vfits (dtype g a) (snd m).

Lemma match_lt a Y : tok_match g a Y -> Y < n.
Proof.
  assert (H : forall b, member g b Y -> Y < n).
  { intros b [[-> Hb]|(ms & Hk & _)]; [unfold is_term in Hb; rename Hb into Hk|]; unfold kind_at in Hk; apply nth_error_Some; destruct (nth_error _ _); [discriminate|discriminate Hk|discriminate|discriminate Hk]. }
  intros [(b & _ & Hb)|(w & _ & Hb)]; eauto.
Qed.
Lemma val_tok a m Y : tokval a m -> tok_match g a Y -> stacked Y m.
Proof.
  intros (La & Hm & Hv) HM. assert (LY : Y < n) by (eapply match_lt; eauto). split; auto. intros HY.
  assert (HA : aliased g Y).
  { destruct HY as [HK|HA]; auto. exfalso. assert (HX : forall b, member g b Y -> False).
    { intros b [[-> Hb]|(ms & Hk & _)]; [unfold is_term in Hb|]; congruence. }
    destruct HM as [(b & _ & Hb)|(w & _ & Hb)]; eauto. }
  pose proof (match_type a Y La LY HM HA) as ET. split; [rewrite Hm; apply same_dt; auto|now rewrite ET].
Qed.

Lemma match_args_ok ru (rt : list (nat * bool * nat)) vals : In ru (g_rules g) ->
  map (fun x => (fst (fst x), snd (fst x))) rt = r_rhs ru -> (forall x, In x rt -> snd x = nth (fst (fst x)) (t_dts t) 0) ->
  Forall2 stacked (map fst (r_rhs ru)) vals -> exists args, match_args rt vals = Some args /\ args_fit ru args.
Proof.
  intros Hru Hrt Hdt HF. unfold args_fit. rewrite <- Hrt in HF |- *.
  assert (HA : forall Y dt, In (Y, true, dt) rt -> aliased g Y).
  { intros Y dt HY. exists ru. split; auto. rewrite <- Hrt. apply in_map_iff. exists (Y, true, dt). auto. }
  clear Hrt Hru. revert vals HF. induction rt as [|[[Y al] dt] rt IH]; intros vals HF; cbn in *.
  - inversion HF; subst. exists []. split; auto; constructor.
  - inversion HF as [|Y' [d v] Ys vs HK HF']; subst. destruct (IH (fun x Hx => Hdt x (or_intror Hx)) (fun Y dt Hx => HA Y dt (or_intror Hx)) vs HF') as (args & Ea & Hf). destruct al.
    + destruct HK as [_ HK]. destruct HK as [Hd Hv]; [right; eapply HA; left; reflexivity|]. cbn in Hd, Hv. specialize (Hdt (Y, true, dt) (or_introl eq_refl)). cbn in Hdt. unfold dt_of in Hd.
      rewrite Hd, Hdt, Nat.eqb_refl, Ea. exists (v :: args). split; auto. cbn. constructor; auto.
    + exists args. auto.
Qed.
Lemma fit_length ru args : args_fit ru args -> List.length args = List.length (filter snd (r_rhs ru)).
Proof. unfold args_fit. intros H. apply Forall2_length in H. now rewrite map_length in H. Qed.
Lemma run_code_some ru args x : In ru (g_rules g) -> args_fit ru args -> run_code sm (r_code ru) args x <> None.
Proof.
  intros Hru Hf. apply fit_length in Hf. pose proof (A1 ru Hru) as HA. unfold run_code. destruct (r_code ru); try discriminate.
  - rewrite HA in Hf by auto. destruct args as [|v [|? ?]]; discriminate.
  - rewrite HA in Hf by auto. destruct args as [|v [|? ?]]; discriminate.
Qed.

Lemma in_rule r : r < nr -> In (rs r) (g_rules g).
Proof. intros H. unfold grule. now apply nth_In. Qed.
Lemma val_red r vals x : r < nr -> Forall2 stacked (map fst (r_rhs (rs r))) vals ->
  exists args x' ve, match_args (rr_rhs (nth r (t_rules t) dummy_rt)) vals = Some args /\ args_fit (rs r) args /\
    run_code sm (r_code (rs r)) args x = Some (x', ve) /\ rr_code (nth r (t_rules t) dummy_rt) = r_code (rs r) /\
    forall v, ve = inl v -> stacked (r_lhs (rs r)) (rr_dt (nth r (t_rules t) dummy_rt), v).
Proof.
  intros Hr HF. destruct (rule_entry g p p3 p4 t P r Hr) as (rr & Hrr & HL & Hrhs & Hcode & Hdt & Hdts). rewrite (nth_error_nth _ _ _ Hrr).
  destruct (match_args_ok (rs r) (rr_rhs rr) vals) as (args & Ea & Hf); auto; [now apply in_rule|].
  pose proof (run_code_some (rs r) args x (in_rule r Hr) Hf) as Hn. destruct (run_code sm (r_code (rs r)) args x) as [[x' ve]|] eqn:Ec; [|contradiction].
  exists args, x', ve. splits; auto. intros v ->. destruct (wg_rule g W r (rs r)) as (Hk & _); [unfold grule; now apply nth_error_nth'|]. split.
  - unfold kind_at in Hk. apply nth_error_Some. destruct (nth_error (g_syms g) (r_lhs (rs r))); [discriminate|discriminate Hk].
  - intros _. cbn. rewrite Hdt. split; auto. eapply ck_rule; eauto. now apply in_rule.
Qed.
Lemma val_acc v : stacked (g_start g) v -> h_accept (user_hooks t sm) v <> None.
Proof.
  intros [Ls HS]. destruct HS as [Hd _]; [left; apply (wg_start g W)|]. cbn. destruct (gen_types) as (m & sy & HT & I & HW & _ & ER & _). rewrite ER.
  rewrite (ti_done _ _ _ _ _ I _ Ls Ls). pose proof (ti_map _ _ _ _ _ I _ Ls Ls) as HM. destruct (dtype g (g_start g)) as [ty|] eqn:Ed.
  - destruct (type_find m ty) as [x|] eqn:Ef; [|discriminate]. apply type_find_some in Ef. assert (x = nth (g_start g) (t_dts t) 0) by (eapply uniq_snd; eauto; apply I). subst x.
    rewrite Hd. unfold dt_of. rewrite Nat.eqb_refl. discriminate.
  - destruct (type_find m TyUnit) as [x|] eqn:Ef; [|discriminate]. exfalso. apply type_find_some in Ef. destruct (ti_src _ _ _ _ _ I _ _ Ef) as (i & _ & Li & Hi & _).
    destruct (ts_start g TS) as [H|H]; [contradiction|now apply (H i Li)].
Qed.
Lemma val_syn v : vfits (dtype g (t_err t)) v -> stacked (t_err t) (dt_of t (t_err t), v).
Proof.
  intros Hv. split; [|auto]. destruct (pp_gen _ _ _ _ _ P) as (k & m & sy & dt & G & _). rewrite (gn_err _ _ _ _ _ _ _ G). pose proof (wg_dflt_range g W). pose proof (wg_nterm_pos g W).
  destruct (1 <? _); [|lia]. destruct (wg_error g W) as [Hk _]. apply (wg_nonterm g W) in Hk. lia.
Qed.

Theorem user_ok : hooks_ok g t (user_hooks t sm) stacked tokval.
Proof.
  constructor.
  - intros a m Y. apply val_tok.
  - intros r vals x Hr HF. destruct (val_red r vals x Hr HF) as (args & x' & ve & Ea & Hf & Ec & Er & HK). cbn. unfold rule_reduce. rewrite Ea, Er, Ec. destruct ve as [v|e].
    + exists x', (inl (rr_dt (nth r (t_rules t) dummy_rt), v)). split; auto. intros v0 E0. injection E0 as <-. now apply HK.
    + exists x', (inr e). split; auto. discriminate.
  - apply val_acc.
  - intros Hne a m exp x x' v. cbn. destruct (u_syntax sm _ _ x) as [x1 [v1|e1]] eqn:Eu; intros H; [|discriminate]. injection H as <- <-. apply val_syn. eapply ck_syn; eauto.
Qed.

(** The same parser with a check of the argument types before every block: a block about to
    be run on a value that is not of the declared type panics. *)
Definition vfitb (o : option ty) (v : V) : bool := match o with Some ty => has ty v | None => true end.
Fixpoint fitb (os : list (option ty)) (vs : list V) : bool :=
  match os, vs with [], [] => true | o :: os', v :: vs' => vfitb o v && fitb os' vs' | _, _ => false end.
Definition checked_reduce (r : nat) (vals : list (minor V)) (x : X) : option (X * (minor V + E)) :=
  let rr := nth r (t_rules t) dummy_rt in
  match match_args (rr_rhs rr) vals with
  | None => None
  | Some args => if fitb (map (fun q => dtype g (fst q)) (filter snd (r_rhs (rs r)))) args then rule_reduce t sm r vals x else None
  end.
Definition checked_hooks : hooks (minor V) X E V :=
  mkHooks checked_reduce (h_accept (user_hooks t sm)) (h_syntax (user_hooks t sm)) (h_fail (user_hooks t sm)) (h_overflow (user_hooks t sm)) (h_unit (user_hooks t sm)).

Lemma fitb_fit os vs : Forall2 vfits os vs -> fitb os vs = true.
Proof. induction 1 as [|o v os vs H HF IH]; cbn; auto. rewrite IH, andb_true_r. destruct o; auto. Qed.
Theorem checked_ok : hooks_ok g t checked_hooks stacked tokval.
Proof.
  pose proof user_ok as U. constructor; try apply U.
  intros r vals x Hr HF. destruct (val_red r vals x Hr HF) as (args & x' & ve & Ea & Hf & Ec & Er & HK). cbn [h_reduce checked_hooks]. unfold checked_reduce. rewrite Ea, (fitb_fit _ _ Hf).
  apply (hk_red _ _ _ _ _ U r vals x Hr HF).
Qed.
End Vals.
End Pat.
