(** Behind every error of the macro is a fault of the grammar (C38): the front end. *)
From Verif Require Import Base Syntax BaseFacts FrontEnd FrontFacts DeclSpec DeclFacts DeclMore GramFacts TypeDecl FaultSpec.
Open Scope string_scope. Open Scope nat_scope. Open Scope list_scope.

Lemma gbind_err {A B} (x : gres A) (f : A -> gres B) e : gbind x f = GErr e -> x = GErr e \/ exists a, x = GOk a /\ f a = GErr e.
Proof. destruct x; cbn; intros H; try discriminate; [eauto|left; congruence]. Qed.
Lemma gfold_err {A S} (f : S -> A -> gres S) e : forall l s, gfold f l s = GErr e ->
  exists l1 a l2 s1, l = l1 ++ a :: l2 /\ gfold f l1 s = GOk s1 /\ f s1 a = GErr e.
Proof.
  induction l as [|a l IH]; intros s H; cbn [gfold] in H; [discriminate|]. apply gbind_err in H as [H|(s1 & H1 & H)].
  - exists [], a, l, s. auto.
  - destruct (IH _ H) as (l1 & b & l2 & s2 & -> & H2 & H3). exists (a :: l1), b, l2, s2. cbn [gfold app]. rewrite H1. auto.
Qed.
Lemma new_no_err f n t e : symbol_new f n t <> GErr e.
Proof. unfold symbol_new. destruct (if String.eqb n "" then None else _); [|discriminate]. destruct t; try discriminate. destruct (sy_kind _); discriminate. Qed.
Lemma is_some_ne {A} (o : option A) : opt_is_some o = true -> o <> None.
Proof. destruct o; discriminate. Qed.

Lemma first_of_in {A B} (h : A -> option B) l b : first_of h l = Some b -> exists i a, nth_error l i = Some a /\ h a = Some b.
Proof. induction l as [|a l IH]; cbn; [discriminate|]. destruct (h a) eqn:E; intros H; [exists 0, a; cbn; split; congruence|]. destruct (IH H) as (i & a' & Hi & Ha). exists (S i), a'. auto. Qed.

(** What may be given once and is recorded was given. *)
Lemma slot_given fuel ds : forall f f', gfold (parse_one_decl fuel) ds f = GOk f' -> J f ->
  forall k, k <> 6 -> k <> 7 -> has_slot k f' = true -> has_slot k f = true \/ exists i d, nth_error ds i = Some d /\ single_kind d = Some k.
Proof.
  induction ds as [|d ds IH]; intros f f' H HJ k N6 N7 Hk; cbn [gfold] in H; [injection H as <-; auto|]. apply gbind_ok in H as (f1 & H1 & H).
  pose proof (one_decl _ _ _ _ H1 HJ) as (J1 & _ & R & _). destruct (IH _ _ H J1 k N6 N7 Hk) as [Hs|(i & d' & Hi & Hd)]; [|right; exists (S i), d'; auto].
  destruct (match single_kind d with Some k' => k' =? k | None => false end) eqn:Ek.
  - right. exists 0, d. split; auto. destruct (single_kind d); [|discriminate]. apply Nat.eqb_eq in Ek. now subst.
  - left. revert Hs. destruct k as [|[|[|[|[|[|[|[|[|[|[|k]]]]]]]]]]]; cbn [has_slot]; auto; try contradiction;
    destruct d; cbn in R, Ek; try discriminate Ek; injection R; intros; repeat match goal with E : _ f1 = _ |- _ => rewrite E in * end; auto.
Qed.
Lemma slot_twice fuel l1 d l2 f k : gfold (parse_one_decl fuel) l1 fe_init = GOk f -> single_kind d = Some k -> has_slot k f = true -> twice k (l1 ++ d :: l2).
Proof.
  intros H Hd Hk.
  assert (HG : exists i d', nth_error l1 i = Some d' /\ single_kind d' = Some k).
  { pose proof (decls_DI _ _ _ H) as D. destruct (Nat.eq_dec k 6) as [->|N6]; [|destruct (Nat.eq_dec k 7) as [->|N7]].
    - pose proof (di_start _ _ D) as S1. cbn in Hk. destruct (f_start f) as [q|]; [|discriminate]. destruct (start_line l1) as [n|] eqn:E; [|contradiction].
      apply first_of_in in E as (i & d' & Hi & Hd'). exists i, d'. split; auto. now destruct d'.
    - pose proof (di_wild _ _ D) as S1. cbn in Hk. destruct (f_wild f) as [q|]; [|discriminate]. destruct (wildcard_of l1) as [n|] eqn:E; [|contradiction].
      apply first_of_in in E as (i & d' & Hi & Hd'). exists i, d'. split; auto. now destruct d'.
    - destruct (slot_given _ _ _ _ H J_init k N6 N7 Hk) as [H0|]; auto.
      destruct k as [|[|[|[|[|[|[|[|[|[|[|k]]]]]]]]]]]; discriminate H0. }
  destruct HG as (i & d' & Hi & Hd'). assert (Li : i < List.length l1) by (apply nth_error_Some; congruence).
  exists i, (List.length l1), d', d. splits; auto.
  - now rewrite nth_error_app1.
  - rewrite nth_error_app2 by lia. now rewrite Nat.sub_diag.
Qed.
Lemma stack_type_given fuel ds : forall f f', gfold (parse_one_decl fuel) ds f = GOk f' -> J f ->
  f_stack_type f' <> None -> f_stack_type f <> None \/ exists m u, In (DStackSize m (Some u)) ds.
Proof.
  induction ds as [|d ds IH]; intros f f' H HJ Hk; cbn [gfold] in H; [injection H as <-; auto|]. apply gbind_ok in H as (f1 & H1 & H).
  pose proof (one_decl _ _ _ _ H1 HJ) as (J1 & _ & R & _). destruct (IH _ _ H J1 Hk) as [Hs|(m & u & Hi)]; [|right; exists m, u; now right].
  destruct d; cbn in R; injection R; intros; repeat match goal with E : _ f1 = _ |- _ => rewrite E in * end; auto.
  match goal with H : ?o <> None |- _ => destruct o as [u|]; [|contradiction] end. right. eexists _, u. now left.
Qed.

(** ** Loops over names *)
Lemma terms_err e0 e ids ss f : gfold (fun '(ss, f) tok => if is_terminal_ident tok then '(s, f') <-! symbol_new f tok NTerm ; GOk (ss ++ [s], f') else GErr e0) ids (ss, f) = GErr e ->
  e = e0 /\ exists n, In n ids /\ no_token n.
Proof.
  intros H. apply gfold_err in H as (l1 & n & l2 & [s1 f1] & -> & _ & H). destruct (is_terminal_ident n) eqn:U.
  - apply gbind_err in H as [H|([s f2] & _ & H)]; [now apply new_no_err in H|discriminate].
  - injection H as <-. split; auto. exists n. split; [apply in_app_iff; right; now left|exact U].
Qed.

Lemma check_err f syms e : forall fuel fb, fallback_check fuel f syms fb = GErr e -> e = EFallbackLoop /\ exists b n, sy_fb (get_sym f fb) = Some b /\ fbs f b n /\ In n syms.
Proof.
  induction fuel as [|fuel IH]; intros fb H; cbn [fallback_check] in H; [discriminate|]. destruct (sy_fb (get_sym f fb)) as [nx|] eqn:E; [|discriminate].
  destruct (smem nx syms) eqn:Em.
  - injection H as <-. split; auto. exists nx, nx. splits; auto; [constructor|]. now apply smem_true.
  - destruct (IH nx H) as (-> & b & n & Hb & Hn & Hin). split; auto. exists nx, n. splits; auto.
    assert (HS : fbstep f nx b).
    { unfold get_sym in Hb. destruct (nth_error (f_syms f) nx) as [s|] eqn:Es; [rewrite (nth_error_nth _ _ _ Es) in Hb; exists s; auto|].
      apply nth_error_None in Es. rewrite nth_overflow in Hb by auto. discriminate. }
    clear -HS Hn. induction Hn as [|y z Hy IHy Hz]; [econstructor; [constructor|exact HS]|econstructor; eauto].
Qed.

Lemma rules_in_app l1 l2 : rules_in (l1 ++ l2) = rules_in l1 ++ rules_in l2.
Proof. induction l1 as [|d l1 IH]; cbn; auto. destruct d; cbn; now rewrite IH. Qed.
Lemma rule_here l1 l r c p l2 : In (mkDr l r c p) (rules_in (l1 ++ DRule l r c p :: l2)).
Proof. rewrite rules_in_app. apply in_app_iff. right. now left. Qed.

Lemma elem_err f e0 e : rhs_elem_sym f e0 = GErr e ->
  (exists n o al, e = EBadIdent /\ e0 = ([n], o, al) /\ no_token n /\ is_nonterminal_ident n = false) \/
  (exists ns o al n, e = ECompound /\ e0 = (ns, o, al) /\ 2 <= List.length ns /\ In n ns /\ no_token n).
Proof.
  destruct e0 as [[toks o] al]. unfold rhs_elem_sym. destruct toks as [|tok [|tok2 toks]]; [discriminate| |]; intros H.
  - left. exists tok, o, al. apply gbind_err in H as [H|(t & _ & H)].
    + unfold no_token. destruct (is_terminal_ident tok); [discriminate|]. destruct (is_nonterminal_ident tok); [discriminate|]. injection H as <-. auto.
    + exfalso. destruct o; apply gbind_err in H as [H|([s f1] & _ & H)]; try (now apply new_no_err in H); [|discriminate].
      destruct (find _ _) as [[? ?]|]; [discriminate|]. apply gbind_err in H as [H|([sl f2] & _ & H)]; [now apply new_no_err in H|discriminate].
  - right. apply gbind_err in H as [H|([mt f1] & _ & H)]; [now apply new_no_err in H|]. apply gbind_err in H as [H|([ss f2] & _ & H)].
    + apply terms_err in H as (-> & n & Hn & U). exists (tok :: tok2 :: toks), o, al, n. splits; auto. cbn. lia.
    + destruct (sy_kind _); discriminate.
Qed.

Lemma not_nodup_cons (n : ident) l : In n l -> ~ NoDup (n :: l).
Proof. intros H ND. inversion ND. auto. Qed.
Lemma nodup_tail (n : ident) l : ~ NoDup l -> ~ NoDup (n :: l).
Proof. intros H ND. inversion ND. auto. Qed.

Lemma assoc_err tf ff cf a e ids : forall pf f, AI pf tf ff cf f ->
  gfold (fun f tok => if is_terminal_ident tok then
          '(s, f1) <-! symbol_new f tok NTerm ;
          if opt_is_some (sy_prec (get_sym f1 s)) then GErr EPrecDup
          else GOk (set_syms f1 (upd (f_syms f1) s (sym_set_prec (Some (f_prec f1, a)))))
        else GErr EPrecNonTerm) ids f = GErr e ->
  (e = EPrecNonTerm /\ exists n, In n ids /\ no_token n) \/ e = EPrecDup /\ (~ NoDup ids \/ exists n, In n ids /\ pf n <> None).
Proof.
  induction ids as [|id ids IH]; intros pf f A H; [discriminate|]. cbn [gfold] in H.
  destruct (is_terminal_ident id) eqn:U; [|injection H as <-; left; split; auto; exists id; split; [now left|exact U]].
  destruct (symbol_new f id NTerm) as [[s f1]| | |] eqn:Hn; cbn [gbind] in H; try discriminate; [|now apply new_no_err in Hn].
  destruct (AI_term _ _ _ _ f id s f1 A U Hn) as (A1 & _ & N1 & _). apply name_sym in N1 as (y & Hy & Ey). 
  assert (Hne : sy_name y <> "") by (rewrite Ey; intros ->; now apply upper_empty in U).
  destruct (ai_sym _ _ _ _ _ A1 _ _ Hy Hne) as (P1 & _). rewrite Ey in P1. rewrite (get_sym_nth _ _ _ Hy) in H. destruct (sy_prec y) as [q|] eqn:Eq; cbn [opt_is_some gbind] in H.
  - injection H as <-. right. split; auto. right. exists id. split; [now left|congruence].
  - destruct (AI_assoc tf ff cf a [id] pf f (set_syms f1 (upd (f_syms f1) s (sym_set_prec (Some (f_prec f1, a))))) A) as (A2 & _).
    { cbn [gfold]. rewrite U, Hn. cbn [gbind]. rewrite (get_sym_nth _ _ _ Hy), Eq. reflexivity. }
    destruct (IH _ _ A2 H) as [(-> & n & Hin & Un)|(-> & HD)]; [left; split; auto; exists n; split; [now right|auto]|right; split; auto].
    destruct HD as [HD|(n & Hin & Hp)]; [left; now apply nodup_tail|]. cbn beta in Hp. destruct (pf n) as [q|] eqn:En; [right; exists n; split; [now right|congruence]|].
    rewrite listed_cons in Hp. destruct (String.eqb_spec n id) as [->|]; [left; now apply not_nodup_cons|]. cbn in Hp. congruence.
Qed.

Lemma fallback_err pf tf cf fb fbs e syms : forall ids ff f, AI pf tf ff cf f -> Forall2 (name_at f) syms ids -> Forall (fun n => upper n) ids -> name_at f fbs fb -> upper fb ->
  gfold (fun f s => if opt_is_some (sy_fb (get_sym f s)) then GErr EFallbackDup
          else GOk (set_has_fb (set_syms f (upd (f_syms f) s (sym_set_fb (Some fbs)))) true)) syms f = GErr e ->
  e = EFallbackDup /\ (~ NoDup ids \/ exists n, In n ids /\ ff n <> None).
Proof.
  induction syms as [|s syms IH]; intros ids ff f A Hids Hu Hfb Ufb H; inversion Hids as [|? id ? ids' Hid Hids']; subst; [discriminate|].
  cbn [gfold] in H. inversion Hu as [|? ? U Us]; subst.
  pose proof Hid as Hid'. apply name_sym in Hid' as (y & Hy & Ey). assert (Hne : sy_name y <> "") by (rewrite Ey; intros ->; now apply upper_empty in U).
  destruct (ai_sym _ _ _ _ _ A _ _ Hy Hne) as (_ & _ & P3 & _). rewrite Ey in P3. rewrite (get_sym_nth _ _ _ Hy) in H. destruct (sy_fb y) as [q|] eqn:Eq; cbn [opt_is_some gbind] in H.
  - injection H as <-. split; auto. right. exists id. split; [now left|]. rewrite <- P3. discriminate.
  - set (f2 := set_has_fb (set_syms f (upd (f_syms f) s (sym_set_fb (Some fbs)))) true) in *.
    destruct (AI_fallback pf tf cf fb fbs [s] [id] ff f f2 A) as (A2 & G2 & l & hf & E2); auto.
    { cbn [gfold]. rewrite (get_sym_nth _ _ _ Hy), Eq. reflexivity. }
    assert (N2 : forall i n, name_at f i n -> name_at f2 i n) by (intros i n Hi; exact (ext_nth _ _ _ _ (proj1 G2) Hi)).
    destruct (IH ids' _ f2 A2) as [-> HD]; auto.
    { eapply f2_impl; [|exact Hids']. auto. }
    split; auto. destruct HD as [HD|(n & Hin & Hp)]; [left; now apply nodup_tail|]. cbn beta in Hp. destruct (ff n) as [q|] eqn:En; [right; exists n; split; [now right|congruence]|].
    rewrite listed_cons in Hp. destruct (String.eqb_spec n id) as [->|]; [left; now apply not_nodup_cons|]. cbn in Hp. congruence.
Qed.

Section One.
Context (fuel : nat) (l1 : list decl) (d : decl) (l2 : list decl) (f : fe).
Hypothesis H1 : gfold (parse_one_decl fuel) l1 fe_init = GOk f.
Notation ds := (l1 ++ d :: l2).
Let D := decls_DI _ _ _ H1.
Let A := di_ai _ _ D.
Lemma here_in : In d ds. Proof. apply in_app_iff. right. now left. Qed.

Lemma fb_falls f2 i n : AI (assoc_of l1) (type_of l1) (fallback_of l1) (class_of l1) f2 -> forall j, name_at f2 i n -> n <> "" -> fbs f2 i j ->
  exists m, name_at f2 j m /\ m <> "" /\ falls l1 n m.
Proof.
  intros A2 j Hi Hn H. induction H as [|b c Hb IH (s & Hs & Hc)]; [exists n; splits; auto; constructor|]. destruct IH as (m & Hm & Hne & Hf).
  pose proof (name_sym _ _ _ Hm) as (s' & Hs' & Es). assert (s' = s) by congruence. subst s'.
  destruct (ai_sym _ _ _ _ _ A2 _ _ Hs) as (_ & _ & P & _); [congruence|]. rewrite Hc, Es in P. cbn in P.
  destruct (fi_syms _ (ai_fi _ _ _ _ _ A2) _ _ Hs) as [_ K]. destruct (K c Hc) as (_ & (x & Hx & Ux) & _).
  exists x. assert (nm f2 c = x) by now apply name_at_nm. splits; auto; [now apply upper_ne|]. econstructor; [exact Hf|]. rewrite <- P. now f_equal.
Qed.

Theorem decl_fault e : parse_one_decl fuel f d = GErr e -> fault ds e.
Proof.
  intros H. pose proof here_in as Hin.
  assert (HT : forall k, single_kind d = Some k -> has_slot k f = true -> twice k ds) by (intros; eapply slot_twice; eauto).
  destruct d as [id|c|c|c|c|na id t|a ids|t|t|t|id|fb ids|id|tk ids|nv gs|nf gs|t|n t| |lhs rhs action prec] eqn:Ed; cbn [parse_one_decl] in H; try discriminate H;
    try (destruct (opt_is_some _) eqn:Eo in H; [injection H as <-; now apply HT|discriminate H]).
  - (* DType *) apply gbind_err in H as [H|(k & Hk & H)].
    + destruct (is_terminal_ident id) eqn:U; [discriminate|]. destruct (is_nonterminal_ident id) eqn:L.
      * destruct (0 <? na) eqn:E; [|discriminate]. injection H as <-. exists na, id, t. apply Nat.ltb_lt in E. auto.
      * injection H as <-. exists id. splits; auto. left. eauto.
    + apply gbind_err in H as [H|([s f1] & Hn & H)]; [now apply new_no_err in H|]. destruct (opt_is_some _) eqn:Eo; [|discriminate]. injection H as <-.
      exists l1, na, id, t, l2. split; auto.
      assert (Hfit : fits_kind k id /\ k <> NMulti).
      { destruct (is_terminal_ident id) eqn:U; [injection Hk as <-; split; [exact U|discriminate]|]. destruct (is_nonterminal_ident id) eqn:L; [|discriminate].
        destruct (0 <? na); [discriminate|]. injection Hk as <-. split; [exact L|discriminate]. }
      destruct Hfit as [Hfit Hk']. destruct (AI_new _ _ _ _ f id k s f1 A Hfit (or_introl Hk') Hn) as (A1 & _ & N1 & _).
      apply name_sym in N1 as (y & Hy & Ey). rewrite (get_sym_nth _ _ _ Hy) in Eo. apply is_some_ne in Eo.
      assert (Hne : id <> "") by (intros ->; destruct k; simpl in Hfit; try discriminate; contradiction).
      destruct (ai_sym _ _ _ _ _ A1 _ _ Hy) as (_ & P2 & _); [congruence|]. rewrite Ey in P2. congruence.
  - (* DAssoc *) pose proof (ai_fi _ _ _ _ _ A) as F. set (f0 := set_precno f (S (f_prec f))) in *. assert (F0 : FI f0) by (fi_same F).
    assert (A0 : AI (assoc_of l1) (type_of l1) (fallback_of l1) (class_of l1) f0) by (eapply AI_syms; [exact A|reflexivity|reflexivity|exact F0]).
    destruct (assoc_err _ _ _ _ _ _ _ _ A0 H) as [(-> & n & Hn & U)|(-> & HD)]; [exists a, ids, n; auto|exists l1, a, ids, l2; auto].
  - (* DStartSymbol *) destruct (opt_is_some (f_start f)) eqn:Eo; [injection H as <-; now apply HT|]. destruct (is_nonterminal_ident id) eqn:L.
    + apply gbind_err in H as [H|([s f1] & _ & H)]; [now apply new_no_err in H|discriminate].
    + injection H as <-. exists id. auto.
  - (* DFallback *) apply gbind_err in H as [H|([syms f1] & Hg & H)]; [apply terms_err in H as (-> & n & Hn & U); exists fb, ids, n; auto|].
    destruct (AI_terms _ _ _ _ _ _ _ _ _ A Hg) as (A1 & G1 & T1 & U1 & l & ->).
    destruct (is_terminal_ident fb) eqn:U; [|injection H as <-; exists fb, ids; auto]. apply gbind_err in H as [H|([fbx f2] & Hn & H)]; [now apply new_no_err in H|].
    destruct (AI_term _ _ _ _ _ fb fbx f2 A1 U Hn) as (A2 & G2 & N2 & l3 & ->).
    assert (T2 : Forall2 (name_at (set_syms (set_syms f l) l3)) syms ids) by (eapply f2_impl; [|exact T1]; intros x y Hab; exact (ext_nth _ _ _ _ (proj1 G2) Hab)).
    apply gbind_err in H as [H|(u & _ & H)].
    + apply check_err in H as (-> & b & j & Hb & Hf & Hj). exists l1, fb, ids, l2. set (f2 := set_syms (set_syms f l) l3) in *.
      pose proof (name_sym _ _ _ N2) as (s & Hs & Es). rewrite (get_sym_nth _ _ _ Hs) in Hb. assert (Hne : fb <> "") by now apply upper_ne.
      destruct (fb_falls f2 fbx fb A2 b N2 Hne) as (m & Hm & Hmne & Hmf); [econstructor; [constructor|exists s; auto]|].
      destruct (fb_falls f2 b m A2 j Hm Hmne Hf) as (n & Hjn & _ & Hfn). exists m, n. splits; auto.
      * destruct (ai_sym _ _ _ _ _ A2 _ _ Hs) as (_ & _ & P & _); [congruence|]. rewrite Hb, Es in P. change (Some (nm f2 b) = fallback_of l1 fb) in P. rewrite <- P. f_equal. now apply name_at_nm.
      * apply forall2_in_l with (a := j) in T2 as (n' & Hn' & HH); auto. unfold name_at in Hjn, HH. assert (n' = n) by congruence. now subst.
    + destruct (fallback_err _ _ _ fb fbx _ syms ids _ _ A2 T2 U1 N2 U H) as [-> HD]. exists l1, fb, ids, l2. auto.
  - (* DWildcard *) destruct (opt_is_some (f_wild f)) eqn:Eo; [injection H as <-; now apply HT|]. destruct (is_terminal_ident id) eqn:L.
    + apply gbind_err in H as [H|([s f1] & _ & H)]; [now apply new_no_err in H|discriminate].
    + injection H as <-. exists id. auto.
  - (* DTokenClass *) destruct (is_terminal_ident tk) eqn:U; [|injection H as <-; exists tk, ids; auto].
    apply gbind_err in H as [H|([c f1] & _ & H)]; [now apply new_no_err in H|]. apply gfold_err in H as (m1 & n & m2 & f2 & -> & _ & H). destruct (is_terminal_ident n) eqn:Un.
    + apply gbind_err in H as [H|([s f3] & _ & H)]; [now apply new_no_err in H|]. destruct (sy_kind _); discriminate.
    + injection H as <-. exists tk, (m1 ++ n :: m2), n. splits; auto. apply in_app_iff. right. now left.
  - (* DStackSize *) destruct (opt_is_some _) eqn:Eo; [|discriminate]. injection H as <-. apply is_some_ne in Eo.
    destruct (stack_type_given _ _ _ _ H1 J_init Eo) as [Hc|(m & u & Hm)]; [now elim Hc|]. exists l1, n, t, l2, m, u. auto.
  - (* DRule *) destruct (is_nonterminal_ident lhs) eqn:L; [|injection H as <-; exists (mkDr lhs rhs action prec); split; [apply rule_here|exact L]].
    apply gbind_err in H as [H|([l f1] & _ & H)]; [now apply new_no_err in H|]. apply gbind_err in H as [H|([r f2] & _ & H)].
    + apply gfold_err in H as (m1 & e1 & m2 & [r1 f2] & -> & _ & H). apply gbind_err in H as [H|([x f3] & _ & H)]; [|discriminate].
      assert (He : has_elem (l1 ++ DRule lhs (m1 ++ e1 :: m2) action prec :: l2) e1) by (eexists; split; [apply rule_here|cbn; apply in_app_iff; right; now left]).
      apply elem_err in H as [(n & o & al & -> & -> & U & L')|(ns & o & al & n & -> & -> & H2 & H3 & H4)].
      * exists n. splits; auto. right. eauto.
      * exists ns, o, al, n. auto.
    + apply gbind_err in H as [H|([ps f3] & _ & H)].
      * destruct prec as [n|]; [|discriminate]. destruct (is_terminal_ident n) eqn:U.
        -- apply gbind_err in H as [H|([s f3] & _ & H)]; [now apply new_no_err in H|discriminate].
        -- injection H as <-. eexists _, n. split; [apply rule_here|]. split; [reflexivity|exact U].
      * unfold create_rule in H. destruct (sy_kind _); discriminate.
Qed.
End One.

Theorem front_fault fuel ds e : new_from_decls fuel ds = GErr e -> fault ds e.
Proof.
  unfold new_from_decls. intros H. apply gbind_err in H as [H|(f & Hf & H)].
  - apply gfold_err in H as (l1 & d & l2 & f & -> & Hf & H). eapply decl_fault; eauto.
  - apply gbind_err in H as [H|([i f1] & Hn & H)]; [now apply new_no_err in H|]. destruct (f_rules f1) eqn:Er; [|discriminate]. injection H as <-.
    apply sym_rules in Hn. rewrite Er in Hn. pose proof (di_rules _ _ (decls_DI _ _ _ Hf)) as HR. rewrite <- Hn in HR. inversion HR. cbn. congruence.
Qed.
