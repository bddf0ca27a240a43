(** Every pair of alternatives [A|B] in a right-hand side gets a symbol of its own (mod.rs
    2012-2029): an anonymous symbol occurs once (C46). *)
From Coq Require Import Permutation.
From Verif Require Import Base Syntax BaseFacts FrontEnd First States Actions Tables Runtime Spec WfGrammar FrontFacts DeclSpec DeclFacts PipeFacts BuildFacts GramFacts FaultSpec.
Open Scope string_scope. Open Scope nat_scope. Open Scope list_scope.

(** ** In the front end *)
Definition occs (rs : list rule) : list nat := flat_map (fun ru => map fst (r_rhs ru)) rs.
Definition anon_once (f : fe) : Prop := forall i, name_at f i "" -> count_occ Nat.eq_dec (occs (f_rules f)) i <= 1.
Lemma occs_app a b : occs (a ++ b) = occs a ++ occs b. Proof. apply flat_map_app. Qed.
Lemma anon_once_same f f' : anon_same f f' -> f_rules f' = f_rules f -> anon_once f -> anon_once f'.
Proof. intros H E U i Hi. rewrite E. now apply U, H. Qed.
Lemma names_len f : List.length (names f) = List.length (f_syms f). Proof. apply map_length. Qed.
Lemma occs_low f : FI f -> Forall (fun i => i < List.length (f_syms f)) (occs (f_rules f)).
Proof.
  intros F. apply Forall_forall. intros i Hi. apply in_flat_map in Hi as (ru & Hru & Hi). apply in_map_iff in Hi as (p & <- & Hp). pose proof (fi_rules f F) as FR. rewrite Forall_forall in FR.
  destruct (FR _ Hru) as (_ & K & _). rewrite Forall_forall in K. destruct (K _ Hp) as [L _]. now rewrite <- names_len.
Qed.
(** The symbol of an element is new if it has no name. *)
Lemma elem_fresh f e x f' : FI f -> rhs_elem_sym f e = GOk (x, f') -> name_at f' (fst x) "" -> List.length (f_syms f) <= fst x.
Proof.
  intros F H Hx. destruct e as [[toks o] alias]. unfold rhs_elem_sym in H. destruct toks as [|tok [|tok2 toks]]; [discriminate| |].
  - exfalso. apply gbind_ok in H as (t & Ht & H). assert (Hne : tok <> "") by (intros ->; discriminate). destruct o; apply gbind_ok in H as ([s f1] & H1 & H).
    + destruct (ident_new _ _ _ _ _ F Ht H1) as (F1 & E1 & N1 & R1). destruct (find _ _) as [[y sl]|] eqn:Ef.
      * injection H as <- <-. cbn [fst] in Hx. apply find_some in Ef as [Hin _]. apply In_nth_error in Hin as [k Hk]. destruct (fi_opt f1 F1 _ _ _ Hk) as [_ Hn]. unfold name_at in Hx. rewrite Hn in Hx. discriminate.
      * apply gbind_ok in H as ([sl f2] & H2 & H). injection H as <- <-. cbn [fst] in Hx. change (name_at f2 sl "") in Hx. assert (Hs : name_at f2 sl (optional_name (List.length (f_opt f1)))).
        { clear -H2. unfold symbol_new in H2. destruct (String.eqb_spec (optional_name (List.length (f_opt f1))) ""); [discriminate|]. destruct (position _ _) as [j|] eqn:Ep.
          - apply position_some in Ep as (s & Hs & Es & _). apply String.eqb_eq in Es. injection H2 as <- <-. unfold name_at. rewrite names_set_syms, names_upd by reflexivity. apply names_nth. eauto.
          - injection H2 as <- <-. unfold name_at. rewrite names_set_syms, map_app, nth_error_app2, map_length, Nat.sub_diag by (rewrite map_length; lia). reflexivity. }
        unfold name_at in *. rewrite Hs in Hx. discriminate.
    + destruct (ident_new _ _ _ _ _ F Ht H1) as (F1 & _ & E1 & R1 & N1). injection H as <- <-. cbn [fst] in Hx. unfold name_at in Hx. congruence.
  - apply gbind_ok in H as ([mt f1] & H1 & H). cbn in H1. injection H1 as <- <-. apply gbind_ok in H as ([ss f2] & H2 & H). destruct (sy_kind _); try discriminate. injection H as <- <-. cbn. lia.
Qed.
Lemma ext_len f f' : ext f f' -> List.length (f_syms f) <= List.length (f_syms f').
Proof. intros [x E]. rewrite <- !names_len, E, app_length. lia. Qed.

Definition once_in (f : fe) (l : list nat) : Prop := Forall (fun i => i < List.length (f_syms f)) l /\ forall i, name_at f i "" -> count_occ Nat.eq_dec l i <= 1.
Lemma once_elem f e x f' l : FI f -> rhs_elem_sym f e = GOk (x, f') -> once_in f l -> once_in f' (l ++ [fst x]).
Proof.
  intros F H [O1 O2]. destruct x as [x al]. destruct (rhs_elem_spec _ _ _ _ _ F H) as (F' & E' & R' & _). pose proof (ext_len _ _ E') as LE. split.
  - apply Forall_app. split; [eapply Forall_impl; [|exact O1]; cbn; intros; lia|]. constructor; auto. destruct R' as [L _]. now rewrite <- names_len.
  - intros i Hi. rewrite count_occ_app. cbn [count_occ fst]. destruct (Nat.eq_dec x i) as [->|Hne].
    + pose proof (elem_fresh _ _ _ _ F H Hi) as L. cbn [fst] in L. assert (~ In i l). { intros Hin. rewrite Forall_forall in O1. specialize (O1 _ Hin). lia. }
      apply (count_occ_not_In Nat.eq_dec) in H0. rewrite H0. lia.
    + apply (rhs_elem_anon _ _ _ _ H) in Hi as [Hi|Hi]; [|cbn in Hi; congruence]. specialize (O2 i Hi). lia.
Qed.
Lemma once_rhs l0 es : forall r f r' f', FI f -> once_in f (l0 ++ map fst r) ->
  gfold (fun '(r, f) e => '(x, f') <-! rhs_elem_sym f e ; GOk (r ++ [x], f')) es (r, f) = GOk (r', f') -> once_in f' (l0 ++ map fst r').
Proof.
  induction es as [|e es IH]; intros r f r' f' F O H; cbn [gfold] in H.
  - injection H as <- <-. auto.
  - apply gbind_ok in H as ([r1 f1] & H1 & H). apply gbind_ok in H1 as ([x f2] & H2 & H1). injection H1 as <- <-. destruct x as [x al]. destruct (rhs_elem_spec _ _ _ _ _ F H2) as (F' & _).
    apply IH in H; auto. rewrite map_app, app_assoc. cbn [map]. exact (once_elem _ _ _ _ _ F H2 O).
Qed.
Lemma parse_one_decl_once fuel f d f' : FI f -> anon_once f -> parse_one_decl fuel f d = GOk f' -> anon_once f'.
Proof.
  intros F A H. destruct d; cbn [parse_one_decl] in H;
    try (injection H as <-; exact A);
    try (match type of H with (if ?b then _ else _) = _ => destruct b; [discriminate|] end; injection H as <-; exact A; fail).
  - apply gbind_ok in H as (k & Hk & H). apply gbind_ok in H as ([s f1] & Hn & H). destruct (opt_is_some _); [discriminate|]. injection H as <-.
    assert (Hne : id <> "") by (intros ->; discriminate). apply (anon_once_same f); auto; [|exact (sym_rules _ _ _ _ _ Hn)].
    eapply anon_trans; [exact (named_new_anon _ _ _ _ _ Hn Hne)|]. now apply anon_upd.
  - assert (A0 : anon_once (set_precno f (S (f_prec f)))) by exact A. revert H. apply gfold_inv; auto.
    intros f1 tok f2 _ F1 H1. destruct (is_terminal_ident tok) eqn:U; [|discriminate]. apply gbind_ok in H1 as ([s f3] & Hn & H1).
    destruct (opt_is_some _); [discriminate|]. injection H1 as <-. apply (anon_once_same f1); auto; [|exact (sym_rules _ _ _ _ _ Hn)].
    eapply anon_trans; [exact (named_new_anon _ _ _ _ _ Hn (upper_ne _ U))|]. now apply anon_upd.
  - destruct (opt_is_some _); [discriminate|]. destruct (is_nonterminal_ident id) eqn:L; [|discriminate]. apply gbind_ok in H as ([s f1] & Hn & H).
    injection H as <-. apply (anon_once_same f); auto; [|exact (sym_rules _ _ _ _ _ Hn)]. exact (named_new_anon _ _ _ _ _ Hn (lower_ne _ L)).
  - apply gbind_ok in H as ([syms f1] & Hg & H). destruct (is_terminal_ident fb) eqn:U; [|discriminate]. apply gbind_ok in H as ([fbx f2] & Hn & H). apply gbind_ok in H as ([] & Hc & H).
    apply fb_fold_names in H as [E1 E2]. apply (anon_once_same f); auto; [|rewrite E2, (sym_rules _ _ _ _ _ Hn); exact (terms_rules _ _ _ _ _ _ Hg)].
    eapply anon_trans; [exact (terms_anon _ _ _ _ _ _ Hg)|]. eapply anon_trans; [exact (named_new_anon _ _ _ _ _ Hn (upper_ne _ U))|]. now apply anon_names.
  - destruct (opt_is_some _); [discriminate|]. destruct (is_terminal_ident id) eqn:U; [|discriminate]. apply gbind_ok in H as ([s f1] & Hn & H).
    injection H as <-. apply (anon_once_same f); auto; [|exact (sym_rules _ _ _ _ _ Hn)]. exact (named_new_anon _ _ _ _ _ Hn (upper_ne _ U)).
  - destruct (is_terminal_ident tk) eqn:U; [|discriminate]. apply gbind_ok in H as ([c f1] & Hn & H).
    assert (A1 : anon_once f1) by (apply (anon_once_same f); auto; [exact (named_new_anon _ _ _ _ _ Hn (upper_ne _ U))|exact (sym_rules _ _ _ _ _ Hn)]).
    revert H. apply gfold_inv; auto. intros f2 id f3 _ F2 H2. destruct (is_terminal_ident id) eqn:Ui; [|discriminate]. apply gbind_ok in H2 as ([s f4] & Hn4 & H2).
    destruct (sy_kind (get_sym f4 c)) as [| |m] eqn:Ek; try discriminate. injection H2 as <-. apply (anon_once_same f2); auto; [|exact (sym_rules _ _ _ _ _ Hn4)].
    eapply anon_trans; [exact (named_new_anon _ _ _ _ _ Hn4 (upper_ne _ Ui))|]. now apply anon_upd.
  - destruct (is_nonterminal_ident lhs) eqn:L; [|discriminate]. apply gbind_ok in H as ([l f1] & Hn & H).
    pose proof (named_new_anon _ _ _ _ _ Hn (lower_ne _ L)) as A1. pose proof (sym_rules _ _ _ _ _ Hn) as R1.
    apply gbind_ok in H as ([r f2] & Hg & H). apply gbind_ok in H as ([ps f3] & Hp & H).
    destruct (symbol_new_spec f lhs NNonTerm l f1 F L Hn) as (F1 & _ & E1 & _).
    assert (O2 : once_in f2 (occs (f_rules f) ++ map fst r)).
    { apply (once_rhs (occs (f_rules f)) rhs [] f1 r f2 F1); auto. rewrite app_nil_r. split.
      - eapply Forall_impl; [|exact (occs_low f F)]. cbn. intros i Hi. pose proof (ext_len _ _ E1). lia.
      - intros i Hi. now apply A, A1. }
    destruct (rhs_fold rhs [] f1 r f2 F1 (Forall_nil _) Hg) as (_ & _ & _ & R2).
    assert (A3 : anon_same f2 f3 /\ f_rules f3 = f_rules f2).
    { destruct prec as [id|]; [|injection Hp as <- <-; split; auto; apply anon_refl]. destruct (is_terminal_ident id) eqn:U; [|discriminate].
      apply gbind_ok in Hp as ([s f4] & Hn4 & Hp). injection Hp as <- <-. split; [exact (named_new_anon _ _ _ _ _ Hn4 (upper_ne _ U))|exact (sym_rules _ _ _ _ _ Hn4)]. }
    destruct A3 as [A3 R3]. unfold create_rule in H. destruct (sy_kind (get_sym f3 l)); try discriminate. injection H as <-.
    intros i Hi. cbn [f_rules set_rules]. assert (Hi3 : name_at f3 i "") by exact Hi. apply A3 in Hi3. rewrite R3, R2, R1, occs_app. unfold occs at 2. cbn [flat_map r_rhs]. rewrite app_nil_r. now apply O2.
Qed.
Theorem decls_once fuel ds f : gfold (parse_one_decl fuel) ds fe_init = GOk f -> anon_once f.
Proof.
  intros H. enough (FI f /\ anon_once f) by tauto. revert H. apply (gfold_inv (parse_one_decl fuel) (fun f => FI f /\ anon_once f)).
  - intros f1 d f2 _ [F A] H. split; [eapply parse_one_decl_FI; eauto|eapply parse_one_decl_once; eauto].
  - split; [apply init_FI|]. intros i _. cbn. lia.
Qed.

(** ** In the grammar *)
Lemma count_map_inj (h : nat -> nat) i l : (forall j, In j l -> h j = h i -> j = i) -> count_occ Nat.eq_dec (map h l) (h i) = count_occ Nat.eq_dec l i.
Proof.
  induction l as [|j l IH]; intros H; cbn; auto. rewrite IH by (intros k Hk; apply H; now right). destruct (Nat.eq_dec (h j) (h i)) as [E|N], (Nat.eq_dec j i) as [->|N']; auto; exfalso; [apply N', H; auto; now left|now apply N].
Qed.
Lemma occs_map (h : nat -> nat) rs rs' : Forall2 (fun r r' => map fst (r_rhs r') = map h (map fst (r_rhs r))) rs rs' -> occs rs' = map h (occs rs).
Proof. induction 1 as [|r r' rs rs' E F IH]; auto. unfold occs in *. cbn [flat_map]. now rewrite map_app, E, IH. Qed.
Lemma forall2_map_l {A B C} (P : B -> C -> Prop) (h : A -> B) l m : Forall2 P (map h l) m -> Forall2 (fun a c => P (h a) c) l m.
Proof. revert m. induction l as [|a l IH]; intros m H; inversion H; subst; constructor; auto. Qed.
Theorem written_once ds g : written ds g -> forall X, at_name g X "" -> count_occ Nat.eq_dec (occs (g_rules g)) X <= 1.
Proof.
  intros [(ord & Ho & fuel & f & g0 & Hf & H0 & H1) _] X HX. pose proof (new_from_decls_spec _ _ _ Hf) as D. apply prepare_spec in H0 as PR.
  unfold new_from_decls in Hf. apply gbind_ok in Hf as (f0 & Hd & Hf). pose proof (decls_once _ _ _ Hd) as OF. pose proof (decls_DI _ _ _ Hd) as DD. pose proof (ai_fi _ _ _ _ _ (di_ai _ _ DD)) as F0.
  assert (Ef : f = set_syms f0 (f_syms f0 ++ [mkSym "{default}" KNonTerm None None 1 None 0])).
  { unfold symbol_new in Hf. cbn [String.eqb] in Hf. destruct (position _ _) as [j|] eqn:Ep.
    - exfalso. change (if ("{default}" =? "")%string then None else position (fun s : symbol => (sy_name s =? "{default}")%string) (f_syms f0)) with
        (position (fun s : symbol => (sy_name s =? "{default}")%string) (f_syms f0)) in Ep.
      apply position_some in Ep as (s & Hs & Es & _). apply String.eqb_eq in Es. apply nth_error_In in Hs.
      apply (fi_tail f0 F0 (sy_name s)); auto. unfold names. now apply in_map.
    - cbn [gbind] in Hf. destruct (f_rules _); [discriminate|]. now injection Hf as <-. }
  pose proof (normalize_rules_spec _ _ H1) as (K1 & K2 & K3 & K4 & K5 & K6 & K7 & K8).
  assert (KP : kept (find_rule_precedences g0) g) by (unfold kept; splits; auto).
  destruct (lf_inv ord f g0 g PR KP X "" HX) as (i & -> & Hi & Li).
  destruct (pr_f2 _ _ _ PR) as (f2 & _ & R2 & _ & _ & RG). set (ix := index_of (order f)) in *.
  assert (EO : occs (g_rules g) = map ix (occs (f_rules f ++ opt_rules_of (ord (f_opt f))))).
  { apply occs_map. cbn [g_rules find_rule_precedences] in K8. rewrite RG, R2 in K8. apply forall2_map_l in K8. apply forall2_map_l in K8. eapply f2_impl; [|exact K8].
    cbn beta. intros r r' H. apply normalize_like in H as [(_ & E & _) _]. rewrite E. unfold ren_rule. cbn. rewrite !map_map. reflexivity. }
  assert (Hi0 : name_at f0 i "").
  { unfold name_at in *. rewrite Ef in Hi. unfold names in Hi. cbn in Hi. rewrite map_app in Hi. destruct (Nat.lt_ge_cases i (List.length (names f0))) as [L|L]; [now rewrite nth_error_app1 in Hi|].
    unfold names in L. rewrite nth_error_app2 in Hi by auto. destruct (i - _) as [|k]; [discriminate|destruct k; discriminate]. }
  assert (HO : forall j, In j (occs (opt_rules_of (ord (f_opt f)))) -> j < List.length (f_syms f0) /\ ~ name_at f0 j "").
  { intros j Hj. apply in_flat_map in Hj as (ru & Hru & Hj). apply in_flat_map in Hru as ([a c] & Hac & Hru). cbn [map app] in Hru.
    destruct Hru as [<-|[<-|[]]]; [destruct Hj|]. destruct Hj as [<-|[]]. cbn. destruct (lf_fopt ord ds f0 f DD Ef Ho a c Hac) as (k & x & Hx & UL & _). split.
    - rewrite <- names_len. apply nth_error_Some. unfold name_at in Hx. congruence.
    - intros E. unfold name_at in *. assert (x = "") by congruence. subst x. destruct UL as [U|U]; [now apply upper_empty in U|discriminate]. }
  assert (ER : f_rules f = f_rules f0) by (rewrite Ef; reflexivity). assert (EL : List.length (f_syms f) = S (List.length (f_syms f0))) by (rewrite Ef; cbn; rewrite app_length; cbn; lia).
  rewrite EO, count_map_inj.
  - rewrite occs_app, count_occ_app, ER. specialize (OF i Hi0).
    assert (HN : ~ In i (occs (opt_rules_of (ord (f_opt f))))) by (intros Hin; now apply HO in Hin). apply (count_occ_not_In Nat.eq_dec) in HN. rewrite HN. lia.
  - intros j Hj E. apply (index_of_inj f); auto. rewrite occs_app in Hj. apply in_app_or in Hj as [Hj|Hj].
    + rewrite ER in Hj. pose proof (occs_low f0 F0) as FL. rewrite Forall_forall in FL. specialize (FL _ Hj). lia.
    + apply HO in Hj. lia.
Qed.
(** An anonymous symbol stands in one place. *)
Lemma count_nth (l : list nat) X : count_occ Nat.eq_dec l X <= 1 -> forall i j, nth_error l i = Some X -> nth_error l j = Some X -> i = j.
Proof.
  induction l as [|Y l IH]; intros HC i j Hi Hj; [destruct i; discriminate|]. cbn in HC. destruct (Nat.eq_dec Y X) as [->|N].
  - assert (HN : ~ In X l) by (apply (count_occ_not_In Nat.eq_dec); lia). destruct i as [|i], j as [|j]; auto; cbn in Hi, Hj; exfalso; apply HN; eapply nth_error_In; eauto.
  - destruct i as [|i], j as [|j]; cbn in Hi, Hj; auto; congruence.
Qed.
Lemma occs_nth X : forall rs, count_occ Nat.eq_dec (occs rs) X <= 1 -> forall r q ru qu d e, nth_error rs r = Some ru -> nth_error rs q = Some qu ->
  nth_error (map fst (r_rhs ru)) d = Some X -> nth_error (map fst (r_rhs qu)) e = Some X -> r = q /\ d = e.
Proof.
  induction rs as [|u rs IH]; intros HC r q ru qu d e Hr Hq Hd He; [destruct r; discriminate|]. change (occs (u :: rs)) with (map fst (r_rhs u) ++ occs rs) in HC. rewrite count_occ_app in HC.
  assert (HI : forall k ku c, nth_error rs k = Some ku -> nth_error (map fst (r_rhs ku)) c = Some X -> 0 < count_occ Nat.eq_dec (occs rs) X).
  { intros k ku c Hk Hc. apply count_occ_In. apply in_flat_map. exists ku. split; eapply nth_error_In; eauto. }
  assert (HU : forall c, nth_error (map fst (r_rhs u)) c = Some X -> 0 < count_occ Nat.eq_dec (map fst (r_rhs u)) X) by (intros c Hc; apply count_occ_In; eapply nth_error_In; eauto).
  destruct r as [|r], q as [|q]; cbn in Hr, Hq.
  - injection Hr as ->. injection Hq as ->. split; auto. apply (count_nth (map fst (r_rhs qu)) X); auto. lia.
  - injection Hr as ->. specialize (HI _ _ _ Hq He). specialize (HU _ Hd). lia.
  - injection Hq as ->. specialize (HI _ _ _ Hr Hd). specialize (HU _ He). lia.
  - destruct (IH ltac:(lia) r q ru qu d e Hr Hq Hd He) as [-> ->]. auto.
Qed.
Theorem anon_place ds g X r q ru qu d e : written ds g -> at_name g X "" -> nth_error (g_rules g) r = Some ru -> nth_error (g_rules g) q = Some qu ->
  nth_error (map fst (r_rhs ru)) d = Some X -> nth_error (map fst (r_rhs qu)) e = Some X -> r = q /\ d = e.
Proof. intros HW HX. apply occs_nth. now apply (written_once ds g). Qed.
