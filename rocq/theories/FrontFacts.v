(** The front end: whatever declarations are given, a grammar that reaches the back end
    is well formed ([wf_grammar]); %fallback chains end unless a token falls back to
    itself; what an optional symbol becomes. *)
From Coq Require Import Permutation.
From Coq Require Import DecimalString DecimalNat.
From Verif Require Import Base Syntax BaseFacts FrontEnd Spec WfGrammar.
Open Scope string_scope. Open Scope nat_scope. Open Scope list_scope.

(** ** Names *)
Definition upper (s : string) : Prop := is_terminal_ident s = true.
Definition lower (s : string) : Prop := is_nonterminal_ident s = true.
(** The name of a nonterminal: an identifier of the user, or the one of an optional symbol *)
Definition lowish (s : string) : Prop := lower s \/ exists n, s = optional_name n.

Definition names (f : fe) : list string := map sy_name (f_syms f).
Definition tid (ns : list string) (i : nat) : Prop := exists s, nth_error ns i = Some s /\ upper s.
Definition nid (ns : list string) (i : nat) : Prop := exists s, nth_error ns i = Some s /\ lowish s.
Definition rid (ns : list string) (i : nat) : Prop := i < List.length ns /\ i <> 0.

Lemma upper_not_lowish s : upper s -> lowish s -> False.
Proof.
  intros U [L|[n ->]].
  - unfold upper, lower, is_terminal_ident, is_nonterminal_ident, first_in in *. destruct s; [discriminate|].
    apply andb_true_iff in U as [_ U]. apply andb_true_iff in L as [L _]. apply Nat.leb_le in U, L. lia.
  - discriminate.
Qed.
Lemma upper_dollar : ~ upper "$". Proof. discriminate. Qed.
Lemma upper_empty : ~ upper "". Proof. discriminate. Qed.
Lemma lowish_empty : ~ lowish "". Proof. intros [H|[n H]]; discriminate. Qed.
Lemma lowish_dollar : ~ lowish "$". Proof. intros [H|[n H]]; discriminate. Qed.
Lemma upper_error : ~ upper "error". Proof. discriminate. Qed.
Lemma lowish_default : ~ lowish "{default}". Proof. intros [H|[n H]]; discriminate. Qed.
Lemma upper_default : ~ upper "{default}". Proof. discriminate. Qed.

Lemma optional_name_inj n m : optional_name n = optional_name m -> n = m.
Proof.
  unfold optional_name. intros H. injection H as H. apply (f_equal NilEmpty.uint_of_string) in H.
  rewrite !NilEmpty.usu in H. injection H as H. apply (f_equal Nat.of_uint) in H. now rewrite !Unsigned.of_to in H.
Qed.

Lemma nth_error_ext {A} (l : list A) x i a : nth_error l i = Some a -> nth_error (l ++ x) i = Some a.
Proof. intros H. rewrite nth_error_app1; auto. apply nth_error_Some. congruence. Qed.

Lemma tid_ext ns x i : tid ns i -> tid (ns ++ x) i.
Proof. intros (s & H & U). exists s. split; auto. now apply nth_error_ext. Qed.
Lemma nid_ext ns x i : nid ns i -> nid (ns ++ x) i.
Proof. intros (s & H & U). exists s. split; auto. now apply nth_error_ext. Qed.
Lemma rid_ext ns x i : rid ns i -> rid (ns ++ x) i.
Proof. intros [H1 H2]. split; auto. rewrite app_length. lia. Qed.

(** ** The invariant of the symbol table *)
Definition kind_ok (ns : list string) (i : nat) (name : string) (k : kind) : Prop :=
  match k with
  | KNonTerm => lowish name
  | KTerm => i = 0 \/ upper name
  | KMulti ms => (upper name \/ name = "") /\ Forall (tid ns) ms
  end.
Definition sym_ok (ns : list string) (hf : bool) (i : nat) (s : symbol) : Prop :=
  kind_ok ns i (sy_name s) (sy_kind s) /\ (forall c, sy_fb s = Some c -> upper (sy_name s) /\ tid ns c /\ hf = true).
Definition rule_ok (ns : list string) (ru : rule) : Prop :=
  (exists s, nth_error ns (r_lhs ru) = Some s /\ lower s) /\ Forall (fun e => rid ns (fst e)) (r_rhs ru) /\
  (forall ps, r_precsym ru = Some ps -> tid ns ps) /\ r_prec ru = None /\ (r_code ru = CAbsent \/ exists c, r_code ru = CUser c).

Record FI (f : fe) : Prop := {
  fi_head : exists rest, names f = "$" :: "error" :: rest;
  fi_syms : forall i s, nth_error (f_syms f) i = Some s -> sym_ok (names f) (f_has_fb f) i s;
  fi_uniq : forall i j x, nth_error (names f) i = Some x -> nth_error (names f) j = Some x -> x <> "" -> i = j;
  fi_rules : Forall (rule_ok (names f)) (f_rules f);
  fi_start : forall s, f_start f = Some s -> nid (names f) s;
  fi_wild : forall w, f_wild f = Some w -> tid (names f) w;
  fi_opt : forall k r l, nth_error (f_opt f) k = Some (r, l) -> rid (names f) r /\ nth_error (names f) l = Some (optional_name k);
  fi_optn : NoDup (map fst (f_opt f));
  fi_optc : forall l k, nth_error (names f) l = Some (optional_name k) -> k < List.length (f_opt f);
  fi_tail : forall x, In x (names f) -> x <> "{default}" }.

Lemma tid_rid f i : FI f -> tid (names f) i -> rid (names f) i.
Proof.
  intros F (s & H & U). split; [apply nth_error_Some; congruence|]. intros ->. destruct (fi_head f F) as [r E]. rewrite E in H.
  injection H as <-. discriminate.
Qed.
Lemma nid_rid f i : FI f -> nid (names f) i -> rid (names f) i.
Proof.
  intros F (s & H & U). split; [apply nth_error_Some; congruence|]. intros ->. destruct (fi_head f F) as [r E]. rewrite E in H.
  injection H as <-. now apply lowish_dollar in U.
Qed.

Lemma names_nth f i x : nth_error (names f) i = Some x <-> exists s, nth_error (f_syms f) i = Some s /\ sy_name s = x.
Proof.
  unfold names. rewrite nth_error_map. destruct (nth_error (f_syms f) i) as [s|]; simpl; split.
  - injection 1 as <-. eauto.
  - intros (s' & E & <-). now injection E as ->.
  - discriminate.
  - intros (s' & E & _). discriminate.
Qed.

Lemma init_FI : FI fe_init.
Proof.
  constructor; cbn; try discriminate; auto.
  - eauto.
  - intros [|[|i]] s; cbn; intros H; try (injection H as <-); try (destruct i; discriminate).
    + split; [now left|discriminate].
    + split; [now left|discriminate].
  - intros [|[|i]] [|[|j]] x H1 H2 Hx; auto; cbn in *; try (destruct i; discriminate); try (destruct j; discriminate); congruence.
  - intros [|k] r l; discriminate.
  - constructor.
  - intros [|[|l]] k H; cbn in H; try (destruct l; discriminate); discriminate.
  - intros x [<-|[<-|[]]]; discriminate.
Qed.

(** Replacing symbols without touching names *)
Lemma FI_syms f l : FI f -> map sy_name l = names f ->
  (forall i s, nth_error l i = Some s -> sym_ok (names f) (f_has_fb f) i s) -> FI (set_syms f l).
Proof.
  intros F En Hs. assert (N : names (set_syms f l) = names f) by exact En.
  destruct F. constructor; try rewrite N; auto.
Qed.

Lemma names_upd l i f0 : (forall s, sy_name (f0 s) = sy_name s) -> map sy_name (upd l i f0) = map sy_name l.
Proof. intros H. revert i. induction l as [|a l IH]; intros [|i]; simpl; auto; f_equal; auto. Qed.

Lemma FI_upd f i f0 : FI f -> (forall s, sy_name (f0 s) = sy_name s) ->
  (forall s, nth_error (f_syms f) i = Some s -> sym_ok (names f) (f_has_fb f) i (f0 s)) -> FI (set_syms f (upd (f_syms f) i f0)).
Proof.
  intros F Hn Hs. apply FI_syms; auto; [now apply names_upd|].
  intros j s H. rewrite nth_error_upd in H. destruct (Nat.eqb_spec i j) as [->|].
  - destruct (nth_error (f_syms f) j) as [s0|]; [|discriminate]. injection H as <-. auto.
  - now apply (fi_syms f F).
Qed.

(** Adding a symbol *)
Lemma FI_add f s k : FI f -> (sy_name s = "" \/ ~ In (sy_name s) (names f)) -> sy_name s <> "{default}" ->
  kind_ok (names f) (List.length (f_syms f)) (sy_name s) (sy_kind s) -> sy_fb s = None ->
  (k = [] /\ (forall n, sy_name s <> optional_name n) \/
   exists r, k = [(r, List.length (f_syms f))] /\ sy_name s = optional_name (List.length (f_opt f)) /\ rid (names f) r /\ ~ In r (map fst (f_opt f))) ->
  FI (set_opt (set_syms f (f_syms f ++ [s])) (f_opt f ++ k)).
Proof.
  intros F Hn Hd Hk Hf Ho. set (f' := set_opt _ _).
  assert (N : names f' = names f ++ [sy_name s]) by (unfold names, f'; cbn; now rewrite map_app).
  assert (Lk : List.length (names f) = List.length (f_syms f)) by apply map_length.
  assert (HX : forall i x, nth_error (names f ++ [sy_name s]) i = Some x -> nth_error (names f) i = Some x \/ i = List.length (names f) /\ x = sy_name s).
  { intros i x H. destruct (Nat.lt_ge_cases i (List.length (names f))) as [L|L]; [rewrite nth_error_app1 in H by auto; auto|].
    rewrite nth_error_app2 in H by auto. destruct (i - List.length (names f)) as [|n] eqn:E; [|destruct n; discriminate].
    injection H as <-. right. split; auto. lia. }
  destruct F. constructor; try rewrite N; cbn.
  - destruct fi_head0 as [r ->]. eexists; reflexivity.
  - intros i s0 H.
    destruct (Nat.lt_ge_cases i (List.length (f_syms f))) as [L|L].
    + rewrite nth_error_app1 in H by auto. apply fi_syms0 in H as [H1 H2]. split.
      * unfold kind_ok in *. destruct (sy_kind s0); auto. destruct H1 as [H1 H3]. split; auto. eapply Forall_impl; [|exact H3]. intros. now apply tid_ext.
      * intros c Hc. destruct (H2 c Hc) as (U & T & B). splits; auto. now apply tid_ext.
    + rewrite nth_error_app2 in H by auto. destruct (i - List.length (f_syms f)) as [|n] eqn:E; [|destruct n; discriminate].
      injection H as <-. assert (i = List.length (f_syms f)) by lia. subst i. split; [|congruence].
      unfold kind_ok in *. destruct (sy_kind s); auto. destruct Hk as [H1 H3]. split; auto. eapply Forall_impl; [|exact H3]. intros. now apply tid_ext.
  - intros i j x Hi Hj Hx. apply HX in Hi as [Hi|[Ei Exi]], Hj as [Hj|[Ej Exj]]; try congruence; eauto.
    + subst x. destruct Hn as [Hn|Hn]; [contradiction|]. exfalso. apply Hn. eapply nth_error_In; eauto.
    + subst x. destruct Hn as [Hn|Hn]; [contradiction|]. exfalso. apply Hn. eapply nth_error_In; eauto.
  - eapply Forall_impl; [|exact fi_rules0]. intros ru (H1 & H2 & H3 & H4 & H5). unfold rule_ok. splits; auto.
    + destruct H1 as (x & H1 & H1'). exists x. split; auto. now apply nth_error_ext.
    + eapply Forall_impl; [|exact H2]. intros. now apply rid_ext.
    + intros ps Hps. now apply tid_ext, H3.
  - intros. now apply nid_ext, fi_start0.
  - intros. now apply tid_ext, fi_wild0.
  - intros j r l H. destruct (Nat.lt_ge_cases j (List.length (f_opt f))) as [L|L].
    + rewrite nth_error_app1 in H by auto. apply fi_opt0 in H as [H1 H2]. split; [now apply rid_ext|now apply nth_error_ext].
    + rewrite nth_error_app2 in H by auto. destruct Ho as [[-> _]|(r0 & -> & Ho & Hr & _)].
      * destruct (j - List.length (f_opt f)); discriminate.
      * destruct (j - List.length (f_opt f)) as [|n] eqn:E; [|destruct n; discriminate]. injection H as <- <-.
        assert (j = List.length (f_opt f)) by lia. subst j. split; [now apply rid_ext|]. rewrite <- Lk, nth_error_app2, Nat.sub_diag by auto. cbn. now rewrite Ho.
  - destruct Ho as [[-> _]|(r0 & -> & _ & _ & Hr)]; [now rewrite app_nil_r|]. rewrite map_app. apply nodup_app_iff. splits; auto.
    + constructor; auto. constructor.
    + intros x Hx [<-|[]]. auto.
  - intros l j H. rewrite app_length. apply HX in H as [H|[-> H]].
    + apply fi_optc0 in H. lia.
    + destruct Ho as [[_ Ho]|(r0 & -> & Ho & _)]; [symmetry in H; now apply Ho in H|]. rewrite Ho in H. apply optional_name_inj in H. subst j. simpl. lia.
  - intros x Hx. apply in_app_iff in Hx as [Hx|[<-|[]]]; auto.
Qed.

(** ** Looking up or creating a symbol *)
Definition ext (f f' : fe) : Prop := exists x, names f' = names f ++ x.
Lemma ext_refl f : ext f f. Proof. exists []. now rewrite app_nil_r. Qed.
Lemma ext_trans f1 f2 f3 : ext f1 f2 -> ext f2 f3 -> ext f1 f3.
Proof. intros [x E] [y E']. exists (x ++ y). now rewrite E', E, app_assoc. Qed.
Lemma ext_tid f f' i : ext f f' -> tid (names f) i -> tid (names f') i.
Proof. intros [x ->]. apply tid_ext. Qed.
Lemma ext_nid f f' i : ext f f' -> nid (names f) i -> nid (names f') i.
Proof. intros [x ->]. apply nid_ext. Qed.
Lemma ext_rid f f' i : ext f f' -> rid (names f) i -> rid (names f') i.
Proof. intros [x ->]. apply rid_ext. Qed.
Lemma ext_nth f f' i x : ext f f' -> nth_error (names f) i = Some x -> nth_error (names f') i = Some x.
Proof. intros [y ->]. apply nth_error_ext. Qed.
Lemma ext_upd f i f0 : (forall s, sy_name (f0 s) = sy_name s) -> ext f (set_syms f (upd (f_syms f) i f0)).
Proof. intros H. exists []. rewrite app_nil_r. now apply names_upd. Qed.

Definition fits_kind (t : nst) (name : string) : Prop :=
  match t with NTerm => upper name | NNonTerm => lower name | NMulti => upper name \/ name = "" end.

Lemma fits_dflt t name : fits_kind t name -> name <> "{default}".
Proof. intros H ->. destruct t; simpl in H; try discriminate. destruct H; discriminate. Qed.
Lemma fits_opt t name n : fits_kind t name -> name <> optional_name n.
Proof. intros H ->. destruct t; simpl in H; try discriminate. destruct H; discriminate. Qed.
Lemma fits_dollar t name : fits_kind t name -> name <> "$".
Proof. intros H ->. destruct t; simpl in H; try discriminate. destruct H; discriminate. Qed.

Lemma set_opt_id f l : set_opt (set_syms f l) (f_opt f ++ []) = set_syms f l.
Proof. unfold set_opt, set_syms. cbn. now rewrite app_nil_r. Qed.

Lemma get_sym_nth f i s : nth_error (f_syms f) i = Some s -> get_sym f i = s.
Proof. apply nth_error_nth. Qed.

Lemma symbol_new_spec f name t i f' : FI f -> fits_kind t name -> symbol_new f name t = GOk (i, f') ->
  FI f' /\ (exists l, f' = set_syms f l) /\ ext f f' /\ nth_error (names f') i = Some name /\
  (t = NMulti -> exists ms, sy_kind (get_sym f' i) = KMulti ms).
Proof.
  intros F Hfit H. unfold symbol_new in H.
  destruct (if String.eqb name "" then None else position (fun s => String.eqb (sy_name s) name) (f_syms f)) as [j|] eqn:Ep.
  - destruct (String.eqb_spec name "") as [|Hne]; [discriminate|].
    apply position_some in Ep as (s & Hs & Es & _). apply String.eqb_eq in Es.
    assert (Hn : nth_error (names f) j = Some name) by (apply names_nth; eauto).
    assert (F1 : FI (set_syms f (upd (f_syms f) j sym_incr_use))).
    { apply FI_upd; auto. intros s' Hs'. rewrite Hs in Hs'. injection Hs' as <-. exact (fi_syms f F j s Hs). }
    assert (E1 : ext f (set_syms f (upd (f_syms f) j sym_incr_use))) by now apply ext_upd.
    pose proof (fi_syms f F j s Hs) as [Hk Hfb]. rewrite Es in Hk.
    assert (Hgk : sy_kind (get_sym (set_syms f (upd (f_syms f) j sym_incr_use)) j) = sy_kind s).
    { erewrite get_sym_nth by (cbn; rewrite nth_error_upd_same, Hs; reflexivity). reflexivity. }
    assert (Hsimple : GOk (j, set_syms f (upd (f_syms f) j sym_incr_use)) = GOk (i, f') -> (t = NMulti -> exists ms, sy_kind s = KMulti ms) ->
       FI f' /\ (exists l, f' = set_syms f l) /\ ext f f' /\ nth_error (names f') i = Some name /\
      (t = NMulti -> exists ms, sy_kind (get_sym f' i) = KMulti ms)).
    { intros E Hm. injection E as <- <-. splits; eauto. - eapply ext_nth; eauto. - rewrite Hgk. exact Hm. }
    rewrite (get_sym_nth f j s Hs) in H.
    destruct t; try (apply Hsimple; [exact H|discriminate]).
    destruct (sy_kind s) eqn:Ek; [|discriminate|apply Hsimple; [exact H|eauto]].
    injection H as <- <-. set (l1 := upd (f_syms f) j sym_incr_use) in *. splits; eauto.
    + apply (FI_upd (set_syms f l1) j (sym_set_kind (KMulti []))); auto. intros s' Hs'. cbn in Hs'. unfold l1 in Hs'.
      rewrite nth_error_upd_same, Hs in Hs'. injection Hs' as <-. split; [|exact (proj2 (fi_syms _ F1 j _ ltac:(cbn; unfold l1; rewrite nth_error_upd_same, Hs; reflexivity)))].
      cbn. split; auto. simpl in Hfit. now rewrite Es.
    + eapply ext_trans; [exact E1|]. now apply (ext_upd (set_syms f l1)).
    + eapply ext_nth; [|exact Hn]. eapply ext_trans; [exact E1|]. now apply (ext_upd (set_syms f l1)).
    + intros _. exists []. erewrite get_sym_nth by (cbn; rewrite nth_error_upd_same; unfold l1; rewrite nth_error_upd_same, Hs; reflexivity). reflexivity.
  - injection H as <- <-. set (s := mkSym name (kind_of_nst t) None None 1 None 0).
    assert (Hx : nth_error (names (set_syms f (f_syms f ++ [s]))) (List.length (f_syms f)) = Some name).
    { unfold names. cbn. rewrite map_app, nth_error_app2, map_length, Nat.sub_diag; auto. now rewrite map_length. }
    splits; auto.
    + rewrite <- set_opt_id. apply FI_add; auto.
      * cbn. destruct (String.eqb_spec name "") as [->|Hne]; [now left|right]. intros Hin. unfold names in Hin.
        apply in_map_iff in Hin as (s' & Es & Hin). eapply position_none in Ep; eauto. simpl in Ep. rewrite Es, String.eqb_refl in Ep. discriminate.
      * cbn. eapply fits_dflt; eauto.
      * cbn. destruct t; simpl in *; auto. now left.
      * left. split; auto. intros n. cbn. eapply fits_opt; eauto.
    + eauto.
    + exists [name]. unfold names. cbn. now rewrite map_app.
    + intros ->. exists []. erewrite get_sym_nth by (cbn; rewrite nth_error_app2, Nat.sub_diag by auto; reflexivity). reflexivity.
Qed.

Lemma fits_tid f' i name : nth_error (names f') i = Some name -> upper name -> tid (names f') i.
Proof. intros H U. exists name. auto. Qed.

Lemma terminal_new f name i f' : FI f -> upper name -> symbol_new f name NTerm = GOk (i, f') ->
  FI f' /\ (exists l, f' = set_syms f l) /\ ext f f' /\ tid (names f') i.
Proof.
  intros F U H. apply (symbol_new_spec f name NTerm) in H as (F' & H1 & H2 & H3 & _); auto. splits; auto. eapply fits_tid; eauto.
Qed.

(** Changing other fields *)
Ltac fi_same F := let N := fresh in destruct F; constructor; auto.

Lemma FI_add_rule f r : FI f -> rule_ok (names f) r -> FI (set_rules f (f_rules f ++ [r])).
Proof. intros F H. fi_same F. cbn. apply Forall_app. split; auto. Qed.
Lemma FI_set_start f s : FI f -> nid (names f) s -> FI (set_start f (Some s)).
Proof. intros F H. fi_same F. cbn. now injection 1 as <-. Qed.
Lemma FI_set_wild f s : FI f -> tid (names f) s -> FI (set_wild f (Some s)).
Proof. intros F H. fi_same F. cbn. now injection 1 as <-. Qed.

Lemma FI_set_has_fb f : FI f -> FI (set_has_fb f true).
Proof. intros F. fi_same F. cbn. intros i s H. destruct (fi_syms0 i s H) as [H1 H2]. split; auto. intros c Hc. destruct (H2 c Hc) as (A1 & A2 & A3). auto. Qed.

Lemma f2_impl {S1 T1} (P Q : S1 -> T1 -> Prop) l m : (forall a b, P a b -> Q a b) -> Forall2 P l m -> Forall2 Q l m.
Proof. intros H. induction 1; constructor; auto. Qed.
Lemma f2_len {S1 T1} (P : S1 -> T1 -> Prop) l m : Forall2 P l m -> List.length l = List.length m.
Proof. induction 1; simpl; auto. Qed.

(** One element of a right-hand side *)
Lemma terms_fold (e : gerr) ids : forall ss f ss' f', FI f -> Forall (tid (names f)) ss ->
  gfold (fun '(ss, f) tok => if is_terminal_ident tok then '(s, f') <-! symbol_new f tok NTerm ; GOk (ss ++ [s], f') else GErr e) ids (ss, f) = GOk (ss', f') ->
  FI f' /\ (exists l, f' = set_syms f l) /\ ext f f' /\ Forall (tid (names f')) ss' /\ 
  Forall2 (fun x n => nth_error (names f') x = Some n) (skipn (List.length ss) ss') ids.
Proof.
  intros ss f ss' f' F Hss H.
  enough (HG : forall ids done ss f, FI f -> Forall (tid (names f)) ss -> Forall2 (fun x n => nth_error (names f) x = Some n) ss done ->
     gfold (fun '(ss, f) tok => if is_terminal_ident tok then '(s, f') <-! symbol_new f tok NTerm ; GOk (ss ++ [s], f') else GErr e) ids (ss, f) = GOk (ss', f') ->
     FI f' /\ (exists l, f' = set_syms f l) /\ ext f f' /\ Forall (tid (names f')) ss' /\ Forall2 (fun x n => nth_error (names f') x = Some n) ss' (done ++ ids)).
  { pose proof (HG ids (map (fun x => nth x (names f) "") ss) ss f F Hss) as HH. destruct HH as (H1 & H2 & H3 & H4 & H5); auto.
    - clear -Hss. induction Hss as [|x ss Hx Hss IH]; simpl; constructor; auto. destruct Hx as (n & Hn & _). rewrite Hn. f_equal. symmetry. now apply nth_error_nth.
    - splits; auto. apply Forall2_app_inv_r in H5 as (l1 & l2 & A1 & A2 & E). rewrite E.
      assert (L : List.length ss = List.length l1). { apply f2_len in A1. rewrite map_length in A1. auto. }
      rewrite L, skipn_app, Nat.sub_diag, skipn_all. exact A2. }
  clear. intros ids. induction ids as [|id ids IH]; intros done ss f F Hss Hd H; cbn [gfold] in H.
  - injection H as -> ->. rewrite app_nil_r. splits; auto; [exists (f_syms f'); now destruct f'|apply ext_refl].
  - destruct (is_terminal_ident id) eqn:U; cbn [gbind] in H; [|discriminate]. gok H. gok Ha. destruct a0 as [s f1]. injection Ha as <-.
    destruct (terminal_new f id s f1 F U Ha0) as (F1 & (l & ->) & E1 & T1).
    destruct (symbol_new_spec f id NTerm s _ F U Ha0) as (_ & _ & _ & N1 & _).
    destruct (IH (done ++ [id]) (ss ++ [s]) _ F1) as (H1 & (l' & ->) & H3 & H4 & H5); auto.
    + apply Forall_app. split; auto. eapply Forall_impl; [|exact Hss]. intros. eapply ext_tid; eauto.
    + apply Forall2_app; auto. eapply f2_impl; [|exact Hd]. intros. eapply ext_nth; eauto.
    + splits; auto; [eexists; reflexivity|eapply ext_trans; eauto|]. now rewrite <- app_assoc in H5.
Qed.

Lemma names_set_syms f l : names (set_syms f l) = map sy_name l. Proof. reflexivity. Qed.

Lemma ident_new f tok t i f' : FI f -> (if is_terminal_ident tok then GOk NTerm else if is_nonterminal_ident tok then GOk NNonTerm else GErr EBadIdent) = GOk t ->
  symbol_new f tok t = GOk (i, f') -> FI f' /\ (exists l, f' = set_syms f l) /\ ext f f' /\ rid (names f') i /\ nth_error (names f') i = Some tok.
Proof.
  intros F Ht H. assert (Hfit : fits_kind t tok).
  { destruct (is_terminal_ident tok) eqn:U; [injection Ht as <-; exact U|]. destruct (is_nonterminal_ident tok) eqn:L; [injection Ht as <-; exact L|discriminate]. }
  destruct (symbol_new_spec _ _ _ _ _ F Hfit H) as (F' & Hl & E & N & _). splits; auto. split; [apply nth_error_Some; congruence|].
  intros ->. destruct (fi_head f' F') as [r Er]. rewrite Er in N. injection N as <-. now apply (fits_dollar _ _ Hfit).
Qed.

Lemma opt_new f sr sl f2 : FI f -> rid (names f) sr -> find (fun p => fst p =? sr) (f_opt f) = None ->
  symbol_new f (optional_name (List.length (f_opt f))) NNonTerm = GOk (sl, f2) ->
  FI (set_opt f2 (f_opt f2 ++ [(sr, sl)])) /\ ext f f2 /\ nth_error (names f2) sl = Some (optional_name (List.length (f_opt f))) /\
  sl = List.length (f_syms f) /\ f2 = set_syms f (f_syms f ++ [mkSym (optional_name (List.length (f_opt f))) KNonTerm None None 1 None 0]).
Proof.
  intros F Hr Hfd H. unfold symbol_new in H.
  assert (Hfresh : ~ In (optional_name (List.length (f_opt f))) (names f)).
  { intros Hin. apply In_nth_error in Hin as [l Hl]. apply (fi_optc f F) in Hl. lia. }
  destruct (String.eqb_spec (optional_name (List.length (f_opt f))) "") as [|_]; [discriminate|].
  destruct (position _ _) as [j|] eqn:Ep.
  - exfalso. apply position_some in Ep as (s & Hs & Es & _). apply String.eqb_eq in Es. apply Hfresh. unfold names.
    rewrite <- Es. apply in_map. eapply nth_error_In; eauto.
  - injection H as <- <-. set (s := mkSym _ _ _ _ _ _ _). splits; auto.
    + change (f_opt (set_syms f (f_syms f ++ [s]))) with (f_opt f). apply FI_add; auto; [discriminate|right; eexists; reflexivity|].
      right. exists sr. splits; auto. intros Hin. apply in_map_iff in Hin as ([r l] & Er & Hin). simpl in Er. subst r.
        apply (find_none _ _ Hfd) in Hin. simpl in Hin. rewrite Nat.eqb_refl in Hin. discriminate.
    + exists [sy_name s]. unfold names. cbn. now rewrite map_app.
    + unfold names. cbn. rewrite map_app, nth_error_app2, map_length, Nat.sub_diag; auto. now rewrite map_length.
Qed.

Lemma opt_found f sr x sl : FI f -> find (fun p => fst p =? sr) (f_opt f) = Some (x, sl) -> rid (names f) sl /\ x = sr.
Proof.
  intros F H. apply find_some in H as [Hin E]. simpl in E. apply Nat.eqb_eq in E. split; auto.
  apply In_nth_error in Hin as [k Hk]. apply (fi_opt f F) in Hk as [_ Hl]. apply nid_rid; auto. exists (optional_name k). split; auto. right. eauto.
Qed.

Lemma rhs_elem_spec f e x al f' : FI f -> rhs_elem_sym f e = GOk ((x, al), f') ->
  FI f' /\ ext f f' /\ rid (names f') x /\ f_rules f' = f_rules f.
Proof.
  intros F H. destruct e as [[toks o] alias]. unfold rhs_elem_sym in H. destruct toks as [|tok [|tok2 toks]]; [discriminate| |].
  - apply gbind_ok in H as (t & Ht & H). destruct o.
    + apply gbind_ok in H as ([sr f1] & Hn & H). destruct (ident_new f tok t sr f1 F Ht Hn) as (F1 & (l & ->) & E1 & R1 & _).
      destruct (find _ _) as [[y sl]|] eqn:Ef.
      * injection H as <- <- <-. splits; auto. now apply (opt_found _ _ _ _ F1 Ef).
      * apply gbind_ok in H as ([sl f2] & Hn2 & H). injection H as <- <- <-.
        destruct (opt_new _ sr sl f2 F1 R1 Ef Hn2) as (F2 & E2 & N2 & _ & E). splits; auto.
        -- eapply ext_trans; eauto.
        -- apply (nid_rid _ sl F2). exists (optional_name (List.length (f_opt (set_syms f l)))). split; auto. right. eauto.
        -- now rewrite E.
    + apply gbind_ok in H as ([s f1] & Hn & H). injection H as <- <- <-.
      destruct (ident_new f tok t s f1 F Ht Hn) as (F1 & (l & ->) & E1 & R1 & _). splits; auto.
  - apply gbind_ok in H as ([mt f1] & Hn & H).
    destruct (symbol_new_spec f "" NMulti mt f1 F (or_intror eq_refl) Hn) as (F1 & (l & ->) & E1 & N1 & _).
    apply gbind_ok in H as ([ss f2] & Hg & H).
    destruct (terms_fold _ _ _ _ _ _ F1 (Forall_nil _) Hg) as (F2 & (l' & ->) & E2 & T2 & _).
    destruct (sy_kind (get_sym _ mt)) as [| |m] eqn:Ek; try discriminate. injection H as <- <- <-.
    pose proof (ext_nth _ _ _ _ E2 N1) as N2. set (f2 := set_syms (set_syms f l) l') in *. splits.
    + apply (FI_upd f2); auto. intros s Hs. rewrite (get_sym_nth _ _ _ Hs) in Ek. destruct (fi_syms _ F2 _ _ Hs) as [K1 K2].
      split; auto. cbn. rewrite Ek in K1. cbn in K1. destruct K1 as [K1 K3]. split; auto. apply Forall_app. auto.
    + eapply ext_trans; [exact E1|]. eapply ext_trans; [exact E2|]. now apply (ext_upd f2).
    + assert (HR : rid (names f2) mt).
      { split; [apply nth_error_Some; rewrite N2; discriminate|]. intros ->. destruct (fi_head _ F2) as [r Er]. rewrite Er in N2. discriminate. }
      eapply ext_rid; [|exact HR]. now apply (ext_upd f2).
    + reflexivity.
Qed.

Lemma rhs_fold es : forall r f r' f', FI f -> Forall (fun e => rid (names f) (fst e)) r ->
  gfold (fun '(r, f) e => '(x, f') <-! rhs_elem_sym f e ; GOk (r ++ [x], f')) es (r, f) = GOk (r', f') ->
  FI f' /\ ext f f' /\ Forall (fun e => rid (names f') (fst e)) r' /\ f_rules f' = f_rules f.
Proof.
  induction es as [|e es IH]; intros r f r' f' F Hr H; cbn [gfold] in H.
  - injection H as -> ->. splits; auto. apply ext_refl.
  - gok H. gok Ha. destruct a0 as [[x al] f1]. injection Ha as <-. destruct (rhs_elem_spec _ _ _ _ _ F Ha0) as (F1 & E1 & R1 & Er).
    apply IH in H as (F2 & E2 & R2 & Er2); auto.
    + splits; auto; [eapply ext_trans; eauto|congruence].
    + apply Forall_app. split; [|repeat constructor; apply R1]. eapply Forall_impl; [|exact Hr]. intros. eapply ext_rid; eauto.
Qed.

Lemma sym_ok_same ns hf i s s' : sy_name s' = sy_name s -> sy_kind s' = sy_kind s -> sy_fb s' = sy_fb s -> sym_ok ns hf i s -> sym_ok ns hf i s'.
Proof. unfold sym_ok. intros -> -> -> H. exact H. Qed.

Lemma FI_upd_same f i f0 : FI f -> (forall s, sy_name (f0 s) = sy_name s) -> (forall s, sy_kind (f0 s) = sy_kind s) -> (forall s, sy_fb (f0 s) = sy_fb s) ->
  FI (set_syms f (upd (f_syms f) i f0)).
Proof. intros F Hn Hk Hf. apply FI_upd; auto. intros s Hs. eapply sym_ok_same; eauto. now apply (fi_syms f F). Qed.

Lemma fb_fold fbs syms : forall f f', FI f -> Forall (tid (names f)) syms -> tid (names f) fbs ->
  gfold (fun f s => if opt_is_some (sy_fb (get_sym f s)) then GErr EFallbackDup
          else GOk (set_has_fb (set_syms f (upd (f_syms f) s (sym_set_fb (Some fbs)))) true)) syms f = GOk f' ->
  FI f' /\ names f' = names f.
Proof.
  induction syms as [|s syms IH]; intros f f' F Hs Hf H; cbn [gfold] in H; [injection H as <-; auto|].
  apply gbind_ok in H as (f4 & H4 & H). inversion Hs as [|? ? Hs1 Hss]; subst. destruct (opt_is_some _); [discriminate|]. injection H4 as <-.
  set (f1 := set_has_fb (set_syms f (upd (f_syms f) s (sym_set_fb (Some fbs)))) true) in *.
  assert (E1 : names f1 = names f) by now apply names_upd.
  destruct (IH f1 f') as [A1 A2]; rewrite ?E1; auto; [|split; auto; congruence].
  assert (F3' : FI (set_has_fb f true)) by now apply FI_set_has_fb.
  refine (FI_upd (set_has_fb f true) s (sym_set_fb (Some fbs)) F3' _ _); [reflexivity|]. intros s0 Hs0. split; [apply (fi_syms _ F3' _ _ Hs0)|].
  cbn. injection 1 as <-. change (names (set_has_fb f true)) with (names f). splits; auto. destruct Hs1 as (n & Hn & Un). apply names_nth in Hn as (s1 & Hs2 & <-). cbn in Hs0.
  rewrite Hs2 in Hs0. injection Hs0 as <-. exact Un.
Qed.

Theorem parse_one_decl_FI fuel f d f' : FI f -> parse_one_decl fuel f d = GOk f' -> FI f'.
Proof.
  intros F H. destruct d; cbn [parse_one_decl] in H;
    try (injection H as <-; exact F);
    try (match type of H with (if ?b then _ else _) = _ => destruct b; [discriminate|] end; injection H as <-; fi_same F; fail).
  - apply gbind_ok in H as (k & Hk & H). apply gbind_ok in H as ([s f1] & Hn & H).
    assert (Hfit : fits_kind k id).
    { destruct (is_terminal_ident id) eqn:U; [injection Hk as <-; exact U|]. destruct (is_nonterminal_ident id) eqn:L; [|discriminate].
      destruct (0 <? nattrs); [discriminate|]. injection Hk as <-. exact L. }
    destruct (symbol_new_spec _ _ _ _ _ F Hfit Hn) as (F1 & _). destruct (opt_is_some _); [discriminate|]. injection H as <-.
    now apply FI_upd_same.
  - assert (F0 : FI (set_precno f (S (f_prec f)))) by (fi_same F). revert H. apply gfold_inv; auto.
    intros f1 tok f2 _ F1 H1. destruct (is_terminal_ident tok) eqn:U; [|discriminate]. apply gbind_ok in H1 as ([s f3] & Hn & H1).
    destruct (terminal_new _ _ _ _ F1 U Hn) as (F3 & _). destruct (opt_is_some _); [discriminate|]. injection H1 as <-. now apply FI_upd_same.
  - destruct (opt_is_some _); [discriminate|]. destruct (is_nonterminal_ident id) eqn:L; [|discriminate]. apply gbind_ok in H as ([s f1] & Hn & H).
    injection H as <-. destruct (symbol_new_spec f id NNonTerm _ _ F L Hn) as (F1 & _ & _ & N & _). apply FI_set_start; auto. exists id. split; auto. now left.
  - apply gbind_ok in H as ([syms f1] & Hg & H). destruct (terms_fold _ _ _ _ _ _ F (Forall_nil _) Hg) as (F1 & _ & E1 & T1 & _).
    destruct (is_terminal_ident fb) eqn:U; [|discriminate]. apply gbind_ok in H as ([fbs f2] & Hn & H).
    destruct (terminal_new _ _ _ _ F1 U Hn) as (F2 & _ & E2 & T2). apply gbind_ok in H as (_ & _ & H).
    assert (T1' : Forall (tid (names f2)) syms) by (eapply Forall_impl; [|exact T1]; intros; eapply ext_tid; eauto).
    now apply (fb_fold fbs syms f2 f' F2 T1' T2).
  - destruct (opt_is_some _); [discriminate|]. destruct (is_terminal_ident id) eqn:U; [|discriminate]. apply gbind_ok in H as ([s f1] & Hn & H).
    injection H as <-. destruct (terminal_new _ _ _ _ F U Hn) as (F1 & _ & _ & N). now apply FI_set_wild.
  - destruct (is_terminal_ident tk) eqn:U; [|discriminate]. apply gbind_ok in H as ([c f1] & Hn & H).
    destruct (symbol_new_spec f tk NMulti c f1 F (or_introl U) Hn) as (F1 & _). revert H. apply gfold_inv; auto.
    intros f2 id f3 _ F2 H2. destruct (is_terminal_ident id) eqn:Ui; [|discriminate]. apply gbind_ok in H2 as ([s f4] & Hn4 & H2).
    destruct (terminal_new _ _ _ _ F2 Ui Hn4) as (F4 & _ & _ & T4). destruct (sy_kind (get_sym f4 c)) as [| |m] eqn:Ek; try discriminate. injection H2 as <-.
    apply FI_upd; auto. intros s0 Hs0. rewrite (get_sym_nth _ _ _ Hs0) in Ek. destruct (fi_syms _ F4 _ _ Hs0) as [K1 K2]. split; auto. cbn.
    rewrite Ek in K1. destruct K1 as [K1 K3]. split; auto. apply Forall_app. auto.
  - destruct (is_nonterminal_ident lhs) eqn:L; [|discriminate]. apply gbind_ok in H as ([l f1] & Hn & H).
    destruct (symbol_new_spec f lhs NNonTerm _ _ F L Hn) as (F1 & _ & _ & N & _). apply gbind_ok in H as ([r f2] & Hg & H).
    destruct (rhs_fold _ _ _ _ _ F1 (Forall_nil _) Hg) as (F2 & E2 & R2 & _). apply gbind_ok in H as ([ps f3] & Hp & H).
    assert (HP : FI f3 /\ ext f2 f3 /\ forall q, ps = Some q -> tid (names f3) q).
    { destruct prec as [id|]; [|injection Hp as <- <-; splits; auto; [apply ext_refl|discriminate]]. destruct (is_terminal_ident id) eqn:U; [|discriminate].
      apply gbind_ok in Hp as ([s f4] & Hn4 & Hp). injection Hp as <- <-. destruct (terminal_new _ _ _ _ F2 U Hn4) as (F4 & _ & E4 & T4). splits; auto. now injection 1 as <-. }
    destruct HP as (F3 & E3 & P3). unfold create_rule in H. destruct (sy_kind (get_sym f3 l)); try discriminate. injection H as <-. apply FI_add_rule; auto.
    unfold rule_ok. cbn. splits; auto.
    + exists lhs. split; auto. eapply ext_nth; [exact E3|]. eapply ext_nth; eauto.
    + eapply Forall_impl; [|exact R2]. intros. eapply ext_rid; eauto.
    + destruct action; eauto.
Qed.

Theorem decls_FI fuel ds f : gfold (parse_one_decl fuel) ds fe_init = GOk f -> FI f.
Proof. apply gfold_inv; [|apply init_FI]. intros. eapply parse_one_decl_FI; eauto. Qed.

(** ** Numbering the symbols *)
Definition same_shape (f f' : fe) : Prop :=
  Forall2 (fun s s' => sy_name s' = sy_name s /\ sy_kind s' = sy_kind s /\ sy_fb s' = sy_fb s /\ sy_prec s' = sy_prec s /\ sy_use s' = sy_use s)
    (f_syms f) (f_syms f') /\ f_wild f' = f_wild f /\ f_start f' = f_start f /\ f_has_fb f' = f_has_fb f /\ f_opt f' = f_opt f.

Lemma f2_refl {S1} (P : S1 -> S1 -> Prop) l : (forall a, P a a) -> Forall2 P l l.
Proof. intros H. induction l; constructor; auto. Qed.
Lemma shape_refl f : same_shape f f.
Proof. split; auto. apply f2_refl. auto. Qed.
Lemma f2_trans {S1} (P : S1 -> S1 -> Prop) l m k : (forall a b c, P a b -> P b c -> P a c) -> Forall2 P l m -> Forall2 P m k -> Forall2 P l k.
Proof. intros H H1. revert k. induction H1; intros k H2; inversion H2; subst; constructor; eauto. Qed.
Lemma shape_trans f1 f2 f3 : same_shape f1 f2 -> same_shape f2 f3 -> same_shape f1 f3.
Proof.
  intros (A1 & A2 & A3 & A4 & A5) (B1 & B2 & B3 & B4 & B5). splits; try congruence. unfold same_shape. splits; try congruence.
  eapply f2_trans; eauto. cbn. intros a b c (? & ? & ? & ? & ?) (? & ? & ? & ? & ?). splits; congruence.
Qed.
Lemma shape_type f i x : same_shape f (set_syms f (upd (f_syms f) i (fun s => sym_set_type (x s) s))).
Proof.
  unfold same_shape. cbn. splits; auto. generalize (f_syms f) as l. intros l. revert i. induction l as [|a l IH]; intros [|i]; simpl; constructor; auto; try (cbn; splits; reflexivity).
  apply f2_refl. auto.
Qed.

Lemma extra_token_shape f order n : same_shape f (extra_token_type f order n) /\ f_rules (extra_token_type f order n) = f_rules f.
Proof.
  unfold extra_token_type. destruct (f_extra_token f) as [et|]; [|split; auto; apply shape_refl]. generalize (seq 1 (n - 1)) as l. intros l.
  revert f. induction l as [|i l IH]; intros f; cbn [fold_left]; [split; auto; apply shape_refl|].
  destruct (IH (set_syms f (upd (f_syms f) (nth i order 0) (fun s => sym_set_type (match sy_type s with None => Some et | Some dt => Some (TyPair et dt) end) s)))) as [A1 A2].
  split; [|exact A2]. eapply shape_trans; [|exact A1]. apply shape_type.
Qed.

Definition opt_rules_of (opts : list (nat * nat)) : list rule :=
  flat_map (fun p => [mkRule (snd p) [] COptNone None None; mkRule (snd p) [(fst p, true)] COptSome None None]) opts.

Lemma optional_rules_spec opts : forall f f', optional_rules f opts = GOk f' ->
  same_shape f f' /\ f_rules f' = f_rules f ++ opt_rules_of opts.
Proof.
  unfold optional_rules. induction opts as [|[r l] opts IH]; intros f f' H; cbn [gfold] in H.
  - injection H as <-. split; [apply shape_refl|]. cbn. now rewrite app_nil_r.
  - apply gbind_ok in H as (f3 & H3 & H). apply gbind_ok in H3 as (f2 & H2 & H3). unfold create_rule in H2, H3.
    destruct (sy_kind (get_sym _ l)); try discriminate. injection H2 as <-. destruct (sy_kind (get_sym _ l)); try discriminate. injection H3 as <-.
    apply IH in H as [A1 A2]. split.
    + eapply shape_trans; [|exact A1]. apply (shape_type f l (fun _ => Some (TyOption match sy_type (get_sym f r) with Some t => t | None => TyUnit end))).
    + rewrite A2. cbn. now rewrite <- !app_assoc.
Qed.

Lemma shape_nth f f' i s : same_shape f f' -> nth_error (f_syms f) i = Some s -> exists s', nth_error (f_syms f') i = Some s' /\
  sy_name s' = sy_name s /\ sy_kind s' = sy_kind s /\ sy_fb s' = sy_fb s /\ sy_prec s' = sy_prec s /\ sy_use s' = sy_use s.
Proof.
  intros [H _]. generalize dependent i. induction H as [|a b l m Hab H IH]; intros [|i] Hi; try discriminate; simpl in *; eauto.
  injection Hi as <-. eauto.
Qed.
Lemma shape_len f f' : same_shape f f' -> List.length (f_syms f') = List.length (f_syms f).
Proof. intros [H _]. symmetry. eapply f2_len; eauto. Qed.

Section Order.
Context (f : fe).
Notation key i := (kind_ord (sy_kind (get_sym f i))).
Notation n := (List.length (f_syms f)).
Definition order := ssort (symbol_less f) (seq 0 n).
Definition lexlt (i j : nat) : Prop := key i < key j \/ key i = key j /\ i < j.

Lemma ins_lex x l : StronglySorted lexlt l -> Forall (fun y => x < y) l -> StronglySorted lexlt (sinsert (symbol_less f) x l).
Proof.
  induction 1 as [|y l Hl IH Hy]; intros Hx; simpl; [repeat constructor|]. inversion Hx as [|? ? Hxy Hxl]; subst.
  unfold symbol_less. destruct (Nat.ltb_spec (key y) (key x)) as [L|L].
  - constructor; [now apply IH|]. eapply Permutation_Forall; [symmetry; apply sinsert_perm|]. constructor; auto. left. exact L.
  - assert (HL : forall z, lexlt y z -> lexlt x z \/ z <= x) by (unfold lexlt; intros; lia).
    constructor; [constructor; auto|]. constructor; [unfold lexlt; lia|].
    apply Forall_forall. intros z Hz. rewrite Forall_forall in Hy, Hxl. specialize (Hy z Hz). specialize (Hxl z Hz). unfold lexlt in *. lia.
Qed.

Lemma order_lex : StronglySorted lexlt order.
Proof.
  unfold order. enough (H : forall k a, StronglySorted lexlt (ssort (symbol_less f) (seq a k))) by apply H.
  induction k as [|k IH]; intros a; simpl; [constructor|]. apply ins_lex; auto.
  apply Forall_forall. intros y Hy. apply ssort_in, in_seq in Hy. lia.
Qed.

Lemma order_perm : Permutation order (seq 0 n). Proof. apply ssort_perm. Qed.
Lemma order_nodup : NoDup order. Proof. apply ssort_nodup, seq_NoDup. Qed.
Lemma order_len : List.length order = n.
Proof. unfold order. now rewrite ssort_length, seq_length. Qed.
Lemma order_in i : In i order <-> i < n.
Proof. unfold order. rewrite ssort_in, in_seq. lia. Qed.

Lemma index_of_nth i : i < n -> nth_error order (index_of order i) = Some i.
Proof.
  intros H. apply order_in in H. apply In_nth_error in H as [j Hj]. unfold index_of. rewrite (position_nth_nodup _ _ _ order_nodup Hj). exact Hj.
Qed.
Lemma index_of_eq i j : nth_error order j = Some i -> index_of order i = j.
Proof. intros Hj. unfold index_of. now rewrite (position_nth_nodup _ _ _ order_nodup Hj). Qed.
Lemma index_of_lt i : i < n -> index_of order i < n.
Proof. intros H. apply index_of_nth in H. rewrite <- order_len. apply nth_error_Some. congruence. Qed.
Lemma index_of_inj i j : i < n -> j < n -> index_of order i = index_of order j -> i = j.
Proof. intros Hi Hj E. apply index_of_nth in Hi, Hj. congruence. Qed.

Lemma sorted_nth {S1} (R : S1 -> S1 -> Prop) l : StronglySorted R l -> forall a b x y, a < b -> nth_error l a = Some x -> nth_error l b = Some y -> R x y.
Proof.
  induction 1 as [|z l Hl IH Hz]; intros [|a] [|b] x y L Hx Hy; simpl in *; try lia; try discriminate.
  - injection Hx as <-. rewrite Forall_forall in Hz. apply Hz. eapply nth_error_In; eauto.
  - apply (IH a b); auto. lia.
Qed.

Lemma lex_index i j : i < n -> j < n -> lexlt i j -> index_of order i < index_of order j.
Proof.
  intros Hi Hj L. pose proof (index_of_nth i Hi) as Ni. pose proof (index_of_nth j Hj) as Nj.
  destruct (Nat.lt_trichotomy (index_of order i) (index_of order j)) as [H|[H|H]]; auto; exfalso.
  - rewrite H in Ni. assert (i = j) by congruence. subst. unfold lexlt in L. lia.
  - pose proof (sorted_nth _ _ order_lex _ _ _ _ H Nj Ni). unfold lexlt in *. lia.
Qed.
Lemma index_lex i j : i < n -> j < n -> index_of order i < index_of order j -> lexlt i j.
Proof. intros Hi Hj L. exact (sorted_nth _ _ order_lex _ _ _ _ L (index_of_nth i Hi) (index_of_nth j Hj)). Qed.
End Order.

(** ** The grammar handed to the back end *)
Record prepared (ord : list (nat * nat) -> list (nat * nat)) (f : fe) (g : grammar) : Prop := {
  pr_f2 : exists f2, same_shape f f2 /\ f_rules f2 = f_rules f ++ opt_rules_of (ord (f_opt f)) /\ g_fe g = f2 /\
    g_syms g = map (fun id => ren_sym (index_of (order f)) (get_sym f2 id)) (order f) /\
    g_rules g = map (ren_rule (index_of (order f))) (f_rules f2);
  pr_nterm : g_nterm g = S (match rposition is_kterm (map (fun id => sy_kind (get_sym f id)) (order f)) with Some i => i | None => 0 end);
  pr_dflt : g_dflt g = match rposition is_knonterm (map (fun id => sy_kind (get_sym f id)) (order f)) with Some i => i | None => 0 end;
  pr_start : g_start g = index_of (order f) (match f_start f with Some s => s | None => r_lhs (nth 0 (f_rules f) dummy_rule) end);
  pr_error : g_error g = index_of (order f) 1;
  pr_wild : g_wild g = option_map (index_of (order f)) (f_wild f) }.

Lemma prepare_spec ord f g : prepare ord f = GOk g -> prepared ord f g.
Proof.
  unfold prepare. fold (order f). intros H. apply gbind_ok in H as (f2 & H2 & H). injection H as <-.
  set (nt := S _) in *. destruct (extra_token_shape f (order f) nt) as [S1 R1].
  apply optional_rules_spec in H2 as [S2 R2]. pose proof (shape_trans _ _ _ S1 S2) as S3.
  constructor; cbn [g_nterm g_dflt g_start g_error g_wild g_syms g_rules g_fe]; auto.
  - exists f2. splits; auto. rewrite R2, R1. f_equal. now destruct S1 as (_ & _ & _ & _ & ->).
  - now destruct S3 as (_ & -> & _).
Qed.

(** Declarations followed by the symbol {default} *)
Record Decls (f : fe) : Prop := {
  dc_f0 : exists f0, FI f0 /\ f = set_syms f0 (f_syms f0 ++ [mkSym "{default}" KNonTerm None None 1 None 0]);
  dc_rules : f_rules f <> [] }.

Lemma new_from_decls_spec fuel ds f : new_from_decls fuel ds = GOk f -> Decls f.
Proof.
  unfold new_from_decls. intros H. apply gbind_ok in H as (f0 & H0 & H). apply decls_FI in H0 as F.
  unfold symbol_new in H. cbn [String.eqb] in H. destruct (position _ _) as [j|] eqn:Ep.
  - exfalso. change (if ("{default}" =? "")%string then None else position (fun s : symbol => (sy_name s =? "{default}")%string) (f_syms f0)) with
      (position (fun s : symbol => (sy_name s =? "{default}")%string) (f_syms f0)) in Ep.
    apply position_some in Ep as (s & Hs & Es & _). apply String.eqb_eq in Es. apply nth_error_In in Hs.
    apply (fi_tail f0 F (sy_name s)); auto. unfold names. now apply in_map.
  - cbn [gbind] in H. destruct (f_rules _) eqn:Er; [discriminate|]. injection H as <-. constructor.
    + exists f0. auto.
    + cbn in *. congruence.
Qed.

Section Front.
Context (ord : list (nat * nat) -> list (nat * nat)) (f : fe) (g : grammar).
Hypothesis D : Decls f.
Hypothesis Pr : prepared ord f g.
Hypothesis Hord : forall l, Permutation (ord l) l.
Notation n := (List.length (f_syms f)).
Notation ix := (index_of (order f)).
Definition kd (i : nat) := sy_kind (get_sym f i).

Lemma dc_n : 3 <= n.
Proof.
  destruct (dc_f0 f D) as (f0 & F & ->). cbn. rewrite app_length. simpl. destruct (fi_head f0 F) as [r E]. apply (f_equal (@List.length _)) in E.
  unfold names in E. rewrite map_length in E. simpl in E. lia.
Qed.

Lemma g_len : List.length (g_syms g) = n.
Proof. destruct (pr_f2 _ _ _ Pr) as (f2 & _ & _ & _ & -> & _). rewrite map_length. apply order_len. Qed.

(** A symbol of the grammar is a declared one, renumbered. *)
Lemma g_sym i s : nth_error (f_syms f) i = Some s -> exists s', nth_error (g_syms g) (ix i) = Some s' /\
  sy_name s' = sy_name s /\ sy_kind s' = ren_kind ix (sy_kind s) /\ sy_fb s' = option_map ix (sy_fb s) /\ sy_prec s' = sy_prec s /\ sy_use s' = sy_use s.
Proof.
  intros H. assert (Hi : i < n) by (apply nth_error_Some; congruence).
  destruct (pr_f2 _ _ _ Pr) as (f2 & Hs & _ & _ & -> & _). rewrite nth_error_map, index_of_nth by auto. cbn.
  destruct (shape_nth _ _ _ _ Hs H) as (s2 & H2 & A1 & A2 & A3 & A4 & A5). rewrite (get_sym_nth _ _ _ H2). eexists. split; [reflexivity|].
  cbn. rewrite A1, A2, A3, A4, A5. auto.
Qed.
Lemma g_sym_inv j s' : nth_error (g_syms g) j = Some s' -> exists i s, j = ix i /\ nth_error (f_syms f) i = Some s /\
  sy_name s' = sy_name s /\ sy_kind s' = ren_kind ix (sy_kind s) /\ sy_fb s' = option_map ix (sy_fb s) /\ sy_prec s' = sy_prec s /\ sy_use s' = sy_use s.
Proof.
  intros H. assert (Hj : j < List.length (order f)). { rewrite order_len, <- g_len. apply nth_error_Some. congruence. }
  apply nth_error_Some in Hj. destruct (nth_error (order f) j) as [i|] eqn:Ei; [|congruence].
  assert (Hi : i < n) by (apply order_in; eapply nth_error_In; eauto). pose proof (index_of_eq f _ _ Ei) as Ej.
  destruct (nth_error (f_syms f) i) as [s|] eqn:Es; [|apply nth_error_None in Es; lia].
  destruct (g_sym i s Es) as (s2 & H2 & A). rewrite Ej in H2. assert (s2 = s') by congruence. subst s2. exists i, s. split; auto.
Qed.
Lemma g_kind i : i < n -> kind_at g (ix i) = Some (ren_kind ix (kd i)).
Proof.
  intros Hi. destruct (nth_error (f_syms f) i) as [s|] eqn:Es; [|apply nth_error_None in Es; lia].
  destruct (g_sym i s Es) as (s2 & H2 & _ & A & _). unfold kind_at. rewrite H2. cbn. rewrite A. unfold kd. now rewrite (get_sym_nth _ _ _ Es).
Qed.
Lemma ren_kterm r k : ren_kind r k = KTerm <-> k = KTerm. Proof. destruct k; cbn; split; congruence. Qed.
Lemma ren_knt r k : ren_kind r k = KNonTerm <-> k = KNonTerm. Proof. destruct k; cbn; split; congruence. Qed.

(** Names decide kinds. *)
Lemma id_name i : i < n -> exists s, nth_error (f_syms f) i = Some s /\
  ((i = pred n /\ sy_name s = "{default}" /\ sy_kind s = KNonTerm /\ sy_fb s = None) \/
   (i < pred n /\ sy_name s <> "{default}" /\ kind_ok (names f) i (sy_name s) (sy_kind s) /\
    forall c, sy_fb s = Some c -> upper (sy_name s) /\ tid (names f) c /\ f_has_fb f = true)).
Proof.
  destruct (dc_f0 f D) as (f0 & F & E). intros Hi.
  assert (N : names f = names f0 ++ ["{default}"]) by (rewrite E; unfold names; cbn; now rewrite map_app).
  assert (L : n = S (List.length (f_syms f0))) by (rewrite E; cbn; rewrite app_length; simpl; lia).
  destruct (nth_error (f_syms f) i) as [s|] eqn:Es; [|apply nth_error_None in Es; lia]. exists s. split; auto.
  rewrite E in Es. cbn in Es. destruct (Nat.lt_ge_cases i (List.length (f_syms f0))) as [Hl|Hl].
  - rewrite nth_error_app1 in Es by auto. right. split; [lia|]. destruct (fi_syms f0 F i s Es) as [K1 K2]. splits.
    + apply (fi_tail f0 F). unfold names. apply in_map. eapply nth_error_In; eauto.
    + rewrite N. unfold kind_ok in *. destruct (sy_kind s); auto. destruct K1 as [K1 K3]. split; auto. eapply Forall_impl; [|exact K3]. intros. now apply tid_ext.
    + intros c Hc. destruct (K2 c Hc) as (A1 & A2 & A3). rewrite N. splits; auto; [now apply tid_ext|]. rewrite E. exact A3.
  - rewrite nth_error_app2 in Es by auto. destruct (i - List.length (f_syms f0)) as [|k] eqn:Ek; [|destruct k; discriminate].
    injection Es as <-. left. cbn. splits; auto. lia.
Qed.

Lemma dc_names : exists l, names f = "$" :: "error" :: l ++ ["{default}"].
Proof.
  destruct (dc_f0 f D) as (f0 & F & ->). destruct (fi_head f0 F) as [r Er]. exists r. unfold names in *. cbn. rewrite map_app. rewrite Er. reflexivity.
Qed.

Lemma tid_kind i : tid (names f) i -> i < n /\ i <> 0 /\ kd i <> KNonTerm.
Proof.
  intros (x & Hx & U). apply names_nth in Hx as (s & Hs & Es). assert (Hi : i < n) by (apply nth_error_Some; congruence). split; auto.
  destruct (id_name i Hi) as (s' & Hs' & HC). assert (s' = s) by congruence. subst s'. split.
  - intros ->. destruct dc_names as [l El]. unfold names in El. destruct (f_syms f) as [|a l0]; [discriminate|]. injection Hs as ->. injection El as El _. rewrite <- Es, El in U. now apply upper_dollar in U.
  - unfold kd. rewrite (get_sym_nth _ _ _ Hs). intros K. destruct HC as [(_ & En & _)|(_ & _ & HK & _)].
    + rewrite <- Es, En in U. now apply upper_default in U.
    + rewrite K in HK. cbn in HK. rewrite Es in HK. eapply upper_not_lowish; eauto.
Qed.
Lemma nid_kind i : nid (names f) i -> i < pred n /\ i <> 0 /\ kd i = KNonTerm.
Proof.
  intros (x & Hx & U). apply names_nth in Hx as (s & Hs & Es). assert (Hi : i < n) by (apply nth_error_Some; congruence).
  destruct (id_name i Hi) as (s' & Hs' & HC). assert (s' = s) by congruence. subst s'.
  destruct HC as [(_ & En & _)|(Hlt & _ & HK & _)]; [rewrite <- Es, En in U; now apply lowish_default in U|].
  assert (Hz : i <> 0).
  { intros ->. destruct dc_names as [l El]. unfold names in El. destruct (f_syms f) as [|a l0]; [discriminate|]. injection Hs as ->. injection El as El _.
    rewrite <- Es, El in U. now apply lowish_dollar in U. }
  splits; auto. unfold kd. rewrite (get_sym_nth _ _ _ Hs). destruct (sy_kind s); auto; cbn in HK; rewrite Es in HK; exfalso.
  - destruct HK as [|HK]; [contradiction|]. eapply upper_not_lowish; eauto.
  - destruct HK as [[HK| ->] _]; [eapply upper_not_lowish; eauto|now apply lowish_empty in U].
Qed.

Lemma kd_0 : kd 0 = KTerm.
Proof.
  pose proof dc_n. destruct (id_name 0) as (s & Hs & HC); [lia|]. unfold kd. rewrite (get_sym_nth _ _ _ Hs).
  destruct dc_names as [l El]. unfold names in El. destruct (f_syms f) as [|a l0] eqn:Ef; [discriminate|]. simpl in Hs. injection Hs as ->. simpl in El. injection El as El _.
  destruct HC as [(Hz & _)|(_ & _ & HK & _)]; [simpl in *; lia|]. destruct (sy_kind s); auto; cbn in HK; rewrite El in HK; exfalso.
  - now apply lowish_dollar in HK. - destruct HK as [[HK|HK] _]; discriminate.
Qed.
Lemma kd_last : kd (pred n) = KNonTerm.
Proof.
  pose proof dc_n. destruct (id_name (pred n)) as (s & Hs & HC); [lia|]. unfold kd. rewrite (get_sym_nth _ _ _ Hs).
  destruct HC as [(_ & _ & K & _)|(Hlt & _)]; [auto|lia].
Qed.
Lemma nid_1 : nid (names f) 1.
Proof. destruct dc_names as [l ->]. exists "error". split; auto. now left. Qed.

Lemma ix_0 : ix 0 = 0.
Proof.
  pose proof dc_n. assert (H0 : 0 < n) by lia. pose proof (index_of_nth f 0 H0) as E.
  destruct (ix 0) as [|k] eqn:Ek; auto. exfalso.
  destruct (nth_error (order f) 0) as [j|] eqn:Ej; [|apply nth_error_None in Ej; rewrite order_len in Ej; lia].
  pose proof (sorted_nth _ _ (order_lex f) 0 (S k) _ _ ltac:(lia) Ej E) as L. unfold lexlt in L. pose proof kd_0 as K. unfold kd in K. rewrite K in L. cbn in L. lia.
Qed.

Lemma kinds_nth j : nth_error (map (fun id => sy_kind (get_sym f id)) (order f)) j = option_map kd (nth_error (order f) j).
Proof. apply nth_error_map. Qed.

Lemma in_nterm i : i < n -> (kd i = KTerm <-> ix i < g_nterm g).
Proof.
  intros Hi. rewrite (pr_nterm _ _ _ Pr). destruct (rposition is_kterm _) as [l|] eqn:El.
  - apply rposition_some in El as (k & Hk & Hb & Hmax). rewrite kinds_nth in Hk.
    destruct (nth_error (order f) l) as [il|] eqn:E; [|discriminate]. cbn in Hk. injection Hk as Hk. subst k.
    assert (Hil : il < n) by (apply order_in; eapply nth_error_In; eauto). apply index_of_eq in E. subst l. split.
    + intros K. apply Nat.lt_succ_r. destruct (Nat.le_gt_cases (ix i) (ix il)) as [|Hgt]; auto. exfalso.
      assert (Hb' := Hmax (ix i) (kd i) Hgt). rewrite kinds_nth, index_of_nth in Hb' by auto. specialize (Hb' eq_refl). rewrite K in Hb'. discriminate.
    + intros Hle. assert (ix i < ix il \/ ix i = ix il) as [Hlt|Heq] by lia.
      * apply index_lex in Hlt; auto. unfold lexlt in Hlt. fold (kd i) (kd il) in Hlt. destruct (kd il); try discriminate. cbn in Hlt. destruct (kd i); cbn in Hlt; auto; lia.
      * apply index_of_inj in Heq; auto. subst. destruct (kd il); auto; discriminate.
  - exfalso. pose proof dc_n. assert (H0 : 0 < n) by lia. enough (HF : is_kterm KTerm = false) by discriminate HF. apply (rposition_none _ _ El).
    apply nth_error_In with (ix 0). rewrite kinds_nth, index_of_nth by auto. cbn. now rewrite kd_0.
Qed.

Lemma dflt_ix : g_dflt g = ix (pred n).
Proof.
  pose proof dc_n. assert (Hl : pred n < n) by lia. rewrite (pr_dflt _ _ _ Pr). destruct (rposition is_knonterm _) as [l|] eqn:El.
  - apply rposition_some in El as (k & Hk & Hb & Hmax). rewrite kinds_nth in Hk.
    destruct (nth_error (order f) l) as [il|] eqn:E; [|discriminate]. cbn in Hk. injection Hk as Hk. subst k.
    assert (Hil : il < n) by (apply order_in; eapply nth_error_In; eauto). apply index_of_eq in E. subst l.
    destruct (Nat.lt_trichotomy (ix il) (ix (pred n))) as [HL|[HL|HL]]; auto; exfalso.
    + pose proof (Hmax (ix (pred n)) KNonTerm HL) as HM. rewrite kinds_nth, index_of_nth in HM by auto. cbn in HM. rewrite kd_last in HM. specialize (HM eq_refl). discriminate.
    + apply index_lex in HL; auto. unfold lexlt in HL. fold (kd il) (kd (pred n)) in HL. rewrite kd_last in HL. destruct (kd il); try discriminate. cbn in HL. lia.
  - exfalso. enough (HF : is_knonterm KNonTerm = false) by discriminate HF. apply (rposition_none _ _ El).
    apply nth_error_In with (ix (pred n)). rewrite kinds_nth, index_of_nth by auto. cbn. now rewrite kd_last.
Qed.

Lemma nt_ix i : i < n -> (kd i = KNonTerm <-> g_nterm g <= ix i <= g_dflt g).
Proof.
  intros Hi. pose proof dc_n. assert (Hl : pred n < n) by lia. rewrite dflt_ix. split.
  - intros K. split.
    + apply Nat.nlt_ge. intros HL. apply in_nterm in HL; auto. congruence.
    + destruct (Nat.eq_dec i (pred n)) as [->|Hne]; [lia|]. apply Nat.lt_le_incl, lex_index; auto. unfold lexlt. fold (kd i) (kd (pred n)). rewrite K, kd_last. cbn. lia.
  - intros [H1 H2]. destruct (kd i) eqn:K; auto; exfalso.
    + apply in_nterm in K; auto. lia.
    + apply Nat.lt_eq_cases in H2 as [H2|H2].
      * apply index_lex in H2; auto. unfold lexlt in H2. fold (kd i) (kd (pred n)) in H2. rewrite K, kd_last in H2. cbn in H2. lia.
      * apply index_of_inj in H2; auto. subst i. rewrite kd_last in K. discriminate.
Qed.

Lemma rid_f i : rid (names f) i <-> i < n /\ i <> 0.
Proof. unfold rid, names. now rewrite map_length. Qed.

Definition rule_fe (ru : rule) : Prop :=
  r_lhs ru < pred n /\ kd (r_lhs ru) = KNonTerm /\
  forall X al, In (X, al) (r_rhs ru) -> X < pred n /\ X <> 0.

Lemma rules_fe ru : In ru (f_rules f ++ opt_rules_of (ord (f_opt f))) -> rule_fe ru.
Proof.
  destruct (dc_f0 f D) as (f0 & F & E).
  assert (N : names f = names f0 ++ ["{default}"]) by (rewrite E; unfold names; cbn; now rewrite map_app).
  assert (L : n = S (List.length (f_syms f0))) by (rewrite E; cbn; rewrite app_length; simpl; lia).
  assert (HN : List.length (names f0) = List.length (f_syms f0)) by apply map_length.
  assert (HO : f_rules f = f_rules f0 /\ f_opt f = f_opt f0) by (rewrite E; auto). destruct HO as [HO1 HO2].
  intros Hin. apply in_app_iff in Hin as [Hin|Hin].
  - rewrite HO1 in Hin. pose proof (fi_rules f0 F) as HR. rewrite Forall_forall in HR. specialize (HR _ Hin) as ((x & Hx & Lx) & Hrhs & _).
    assert (Hnid : nid (names f) (r_lhs ru)) by (exists x; rewrite N; split; [now apply nth_error_ext|now left]). apply nid_kind in Hnid as (A1 & A2 & A3). splits; auto.
    unfold rule_fe. splits; auto. intros X al HX. rewrite Forall_forall in Hrhs. specialize (Hrhs _ HX) as [A B]. cbn in *. lia.
  - unfold opt_rules_of in Hin. apply in_flat_map in Hin as ([r l] & Hin & Hru). apply (Permutation_in _ (Hord _)) in Hin. rewrite HO2 in Hin.
    apply In_nth_error in Hin as [k Hk]. apply (fi_opt f0 F) in Hk as [[R1 R2] Hl].
    assert (Hnid : nid (names f) l) by (exists (optional_name k); rewrite N; split; [now apply nth_error_ext|right; eauto]). apply nid_kind in Hnid as (A1 & A2 & A3).
    destruct Hru as [<-|[<-|[]]]; unfold rule_fe; cbn; splits; auto; [intros X al []|].
    intros X al [HX|[]]. injection HX as <- <-. lia.
Qed.

Lemma ix_ne i j : i < n -> j < n -> i <> j -> ix i <> ix j.
Proof. intros Hi Hj Hne HE. apply Hne. eapply index_of_inj; eauto. Qed.
Lemma ix_nz i : i < n -> i <> 0 -> ix i <> 0.
Proof. intros Hi Hz. pose proof dc_n. pose proof (ix_ne i 0 Hi ltac:(lia) Hz) as HE. now rewrite ix_0 in HE. Qed.
Lemma ix_nd i : i < pred n -> ix i <> g_dflt g.
Proof. intros Hi. pose proof dc_n. rewrite dflt_ix. apply ix_ne; lia. Qed.

Lemma tid_g i : tid (names f) i -> ix i < List.length (g_syms g) /\ ix i <> 0 /\ kind_at g (ix i) <> Some KNonTerm.
Proof.
  intros H. apply tid_kind in H as (A1 & A2 & A3). rewrite g_len. splits; [now apply index_of_lt|now apply ix_nz|]. rewrite g_kind by auto. intros HE. injection HE as HE.
  apply ren_knt in HE. contradiction.
Qed.

Theorem front_wf : wf_grammar g.
Proof.
  pose proof dc_n as Hn. assert (Hl : pred n < n) by lia.
  destruct (dc_f0 f D) as (f0 & F & E).
  assert (N : names f = names f0 ++ ["{default}"]) by (rewrite E; unfold names; cbn; now rewrite map_app).
  assert (HJ : forall j, j < n -> exists i, i < n /\ ix i = j).
  { intros j Hj. destruct (nth_error (order f) j) as [i|] eqn:Ei; [|apply nth_error_None in Ei; rewrite order_len in Ei; lia].
    exists i. split; [apply order_in; eapply nth_error_In; eauto|now apply index_of_eq]. }
  constructor.
  - rewrite g_len. pose proof (proj1 (nt_ix (pred n) Hl) kd_last) as [A1 A2]. rewrite dflt_ix. split; auto. now apply index_of_lt.
  - rewrite (pr_nterm _ _ _ Pr). lia.
  - intros j Hj. rewrite g_len in Hj. destruct (HJ j Hj) as (i & Hi & <-). rewrite g_kind by auto. rewrite <- in_nterm by auto. split.
    + intros HE. injection HE as HE. now apply ren_kterm in HE. + intros ->. reflexivity.
  - intros j. split.
    + intros HK. pose proof (kind_at_range _ _ _ HK) as Hj. rewrite g_len in Hj. destruct (HJ j Hj) as (i & Hi & <-). rewrite g_kind in HK by auto. injection HK as HK.
      apply ren_knt in HK. now apply nt_ix.
    + intros HR. assert (Hj : j < n) by (rewrite dflt_ix in HR; pose proof (index_of_lt f (pred n) Hl); lia). destruct (HJ j Hj) as (i & Hi & <-). rewrite g_kind by auto.
      apply nt_ix in HR; auto. now rewrite HR.
  - intros r ru Hr. destruct (pr_f2 _ _ _ Pr) as (f2 & _ & HR & _ & _ & HG). rewrite HG, nth_error_map, HR in Hr.
    destruct (nth_error (f_rules f ++ opt_rules_of (ord (f_opt f))) r) as [ru0|] eqn:E0; [|discriminate]. cbn in Hr. injection Hr as <-.
    apply nth_error_In, rules_fe in E0 as (A1 & A2 & A3). cbn. splits.
    + rewrite g_kind by lia. now rewrite A2.
    + now apply ix_nd.
    + intros X al HX. apply in_map_iff in HX as ([X0 al0] & HX & Hin). injection HX as <- <-. specialize (A3 _ _ Hin) as [B1 B2]. splits.
      * rewrite g_len. apply index_of_lt. lia.
      * apply ix_nz; lia.
      * now apply ix_nd.
  - rewrite (pr_start _ _ _ Pr). set (s := match f_start f with Some s => s | None => _ end).
    assert (Hs : s < pred n /\ kd s = KNonTerm).
    { unfold s. destruct (f_start f) as [s0|] eqn:Es.
      - assert (Hs0 : f_start f0 = Some s0) by (rewrite E in Es; exact Es). apply (fi_start f0 F) in Hs0. assert (Hnid : nid (names f) s0) by (rewrite N; now apply nid_ext).
        apply nid_kind in Hnid. tauto.
      - pose proof (dc_rules f D) as HR. destruct (f_rules f) as [|ru l] eqn:Er; [contradiction|]. cbn.
        assert (Hin : In ru (f_rules f ++ opt_rules_of (ord (f_opt f)))) by (rewrite Er; now left). apply rules_fe in Hin. unfold rule_fe in Hin. tauto. }
    destruct Hs as [Hs1 Hs2]. split; [|now apply ix_nd]. rewrite g_kind by lia. now rewrite Hs2.
  - rewrite (pr_error _ _ _ Pr). pose proof (nid_kind 1 nid_1) as (A1 & A2 & A3). split; [|now apply ix_nd]. rewrite g_kind by lia. now rewrite A3.
  - intros X ms m HK Hin. pose proof (kind_at_range _ _ _ HK) as Hj. rewrite g_len in Hj. destruct (HJ X Hj) as (i & Hi & <-). rewrite g_kind in HK by auto. injection HK as HK.
    destruct (id_name i Hi) as (s & Hs & HC). unfold kd in HK. rewrite (get_sym_nth _ _ _ Hs) in HK. destruct (sy_kind s) as [| |ms0] eqn:Ek; try discriminate. cbn in HK. injection HK as <-.
    apply in_map_iff in Hin as (m0 & <- & Hin). destruct HC as [(_ & _ & K & _)|(_ & _ & HK & _)]; [congruence|]. destruct HK as [_ HK]. rewrite Forall_forall in HK. now apply tid_g, HK.
  - intros j s c Hs Hc. destruct (g_sym_inv j s Hs) as (i & s0 & -> & Hs0 & _ & _ & Hfb & _). rewrite Hfb in Hc. destruct (sy_fb s0) as [c0|] eqn:Ec; [|discriminate]. cbn in Hc. injection Hc as <-.
    assert (Hi : i < n) by (apply nth_error_Some; congruence). destruct (id_name i Hi) as (s' & Hs' & HC). assert (s' = s0) by congruence. subst s'.
    destruct HC as [(_ & _ & _ & K)|(_ & _ & _ & HK)]; [congruence|]. destruct (HK c0 Ec) as (U & T & B).
    assert (Ti : tid (names f) i). { exists (sy_name s0). split; auto. apply names_nth. eauto. }
    pose proof (tid_g i Ti) as (_ & B2 & _). pose proof (tid_g c0 T) as (C1 & C2 & C3). splits; auto.
    destruct (pr_f2 _ _ _ Pr) as (f2 & (_ & _ & _ & Sh & _) & _ & -> & _). congruence.
  - intros w Hw. rewrite (pr_wild _ _ _ Pr) in Hw. destruct (f_wild f) as [w0|] eqn:Ew; [|discriminate]. cbn in Hw. injection Hw as <-. apply tid_g.
    rewrite N. apply tid_ext. apply (fi_wild f0 F). rewrite E in Ew. exact Ew.
Qed.
End Front.

(** ** What [find_rule_precedences] and [normalize_rules] keep *)
Definition rule_like (r r' : rule) : Prop :=
  r_lhs r' = r_lhs r /\ map fst (r_rhs r') = map fst (r_rhs r) /\ r_precsym r' = r_precsym r.

Lemma wf_same g g' : g_syms g' = g_syms g -> Forall2 rule_like (g_rules g) (g_rules g') -> g_nterm g' = g_nterm g -> g_dflt g' = g_dflt g ->
  g_start g' = g_start g -> g_error g' = g_error g -> g_wild g' = g_wild g -> f_has_fb (g_fe g') = f_has_fb (g_fe g) -> wf_grammar g -> wf_grammar g'.
Proof.
  intros E1 E2 E3 E4 E5 E6 E7 E8 W. assert (HK : forall i, kind_at g' i = kind_at g i) by (intros; unfold kind_at; now rewrite E1).
  constructor; rewrite ?E1, ?E3, ?E4, ?E5, ?E6, ?E7, ?E8; try setoid_rewrite HK; try apply W.
  intros r ru Hr. assert (HR : exists ru0, nth_error (g_rules g) r = Some ru0 /\ rule_like ru0 ru).
  { clear -E2 Hr. generalize dependent r. induction E2 as [|a b l m H E2 IH]; intros [|r] Hr; try discriminate; simpl in *; [injection Hr as <-; eauto|eauto]. }
  destruct HR as (ru0 & Hr0 & A1 & A2 & A3). destruct (wg_rule g W _ _ Hr0) as (B1 & B2 & B3). rewrite A1. splits; auto.
  intros X al HX. assert (HX' : In X (map fst (r_rhs ru0))) by (rewrite <- A2; apply in_map_iff; exists (X, al); auto).
  apply in_map_iff in HX' as ([X0 al0] & E & HX'). cbn in E. subst X0. eauto.
Qed.

Lemma normalize_like g r r' : normalize_rule g r = GOk r' -> rule_like r r' /\ r_prec r' = r_prec r.
Proof.
  unfold normalize_rule, rule_like. destruct (r_code r); try (injection 1 as <-; auto; fail). destruct (has_type g (r_lhs r)); [|injection 1 as <-; auto].
  destruct (_ && _); [|discriminate]. injection 1 as <-. cbn. splits; auto. rewrite map_map. apply map_ext. auto.
Qed.

Lemma normalize_rules_spec g g' : normalize_rules g = GOk g' ->
  g_syms g' = g_syms g /\ g_nterm g' = g_nterm g /\ g_dflt g' = g_dflt g /\ g_start g' = g_start g /\ g_error g' = g_error g /\ g_wild g' = g_wild g /\ g_fe g' = g_fe g /\
  Forall2 (fun r r' => normalize_rule g r = GOk r') (g_rules g) (g_rules g').
Proof.
  unfold normalize_rules. intros H. apply gbind_ok in H as (rs & Hr & H). injection H as <-. cbn. splits; auto.
  apply gmap_spec in Hr as (r' & -> & Hr). exact Hr.
Qed.

Lemma f2_map_l {S1 T1 U1} (P : T1 -> U1 -> Prop) (h : S1 -> T1) l m : Forall2 P (map h l) m -> Forall2 (fun a b => P (h a) b) l m.
Proof. revert m. induction l as [|a l IH]; intros m H; inversion H; subst; constructor; auto. Qed.

(** Every grammar the macro hands to its back end is well formed. *)
Theorem prepared_wf ord f g g1 : Decls f -> (forall l, Permutation (ord l) l) -> prepare ord f = GOk g ->
  normalize_rules (find_rule_precedences g) = GOk g1 -> wf_grammar g1.
Proof.
  intros D Ho Hp Hn. apply prepare_spec in Hp. pose proof (front_wf ord f g D Hp Ho) as W.
  apply normalize_rules_spec in Hn as (A1 & A2 & A3 & A4 & A5 & A6 & A7 & A8). cbn in *. eapply (wf_same g); eauto; [|now rewrite A7].
  apply f2_map_l in A8. eapply f2_impl; [|exact A8]. cbn. intros r r' H. apply normalize_like in H as [H _]. exact H.
Qed.

(** ** Fallback chains *)
Definition fbstep (f : fe) (i c : nat) : Prop := exists s, nth_error (f_syms f) i = Some s /\ sy_fb s = Some c.
Inductive fbs (f : fe) (a : nat) : nat -> Prop := fbs_refl : fbs f a a | fbs_step b c : fbs f a b -> fbstep f b c -> fbs f a c.
Definition acyc (f : fe) : Prop := forall a c, fbstep f a c -> ~ fbs f c a.
Definition fb_same (f f' : fe) : Prop := forall i c, fbstep f' i c <-> fbstep f i c.

Lemma fb_same_refl f : fb_same f f. Proof. intros i c. tauto. Qed.
Lemma fb_same_trans f1 f2 f3 : fb_same f1 f2 -> fb_same f2 f3 -> fb_same f1 f3.
Proof. intros H1 H2 i c. now rewrite (H2 i c). Qed.
Lemma fb_same_upd f i f0 : (forall s, sy_fb (f0 s) = sy_fb s) -> fb_same f (set_syms f (upd (f_syms f) i f0)).
Proof.
  intros H j c. unfold fbstep. cbn. rewrite nth_error_upd. destruct (Nat.eqb_spec i j) as [->|].
  - destruct (nth_error (f_syms f) j) as [s|]; cbn; split; intros (s' & E & Hc); try discriminate; injection E as <-; eexists; split; try reflexivity; rewrite H in *; auto.
  - tauto.
Qed.
Lemma fb_same_add f s : sy_fb s = None -> fb_same f (set_syms f (f_syms f ++ [s])).
Proof.
  intros H j c. unfold fbstep. cbn. destruct (Nat.lt_ge_cases j (List.length (f_syms f))) as [L|L].
  - rewrite nth_error_app1 by auto. tauto.
  - rewrite nth_error_app2 by auto. split; intros (s' & E & Hc).
    + destruct (j - List.length (f_syms f)) as [|k]; [injection E as <-; congruence|destruct k; discriminate].
    + apply nth_error_None in L. congruence.
Qed.
Lemma fb_same_fbs f f' a b : fb_same f f' -> fbs f' a b <-> fbs f a b.
Proof. intros H. split; induction 1; try constructor; econstructor; eauto; now apply H. Qed.
Lemma fb_same_acyc f f' : fb_same f f' -> acyc f -> acyc f'.
Proof. intros H A a c Hs Hc. apply H in Hs. apply (fb_same_fbs f f' _ _ H) in Hc. eapply A; eauto. Qed.

Lemma symbol_new_fb f name t i f' : symbol_new f name t = GOk (i, f') -> fb_same f f'.
Proof.
  unfold symbol_new. destruct (if (name =? "")%string then None else _) as [j|]; intros H.
  - assert (A : fb_same f (set_syms f (upd (f_syms f) j sym_incr_use))) by now apply fb_same_upd.
    destruct t; try (injection H as <- <-; exact A). destruct (sy_kind (get_sym f j)); try discriminate; injection H as <- <-; auto.
    eapply fb_same_trans; [exact A|]. now apply (fb_same_upd (set_syms f (upd (f_syms f) j sym_incr_use))).
  - injection H as <- <-. now apply fb_same_add.
Qed.

Lemma gfold_rel {A S} (P : S -> S -> Prop) (F : S -> A -> gres S) l : (forall s, P s s) -> (forall a b c, P a b -> P b c -> P a c) ->
  (forall s a s', In a l -> F s a = GOk s' -> P s s') -> forall s s', gfold F l s = GOk s' -> P s s'.
Proof.
  intros Hr Ht. induction l as [|a l IH]; intros Hs s s' H; cbn [gfold] in H; [injection H as <-; auto|].
  apply gbind_ok in H as (s1 & H1 & H). eapply Ht; [eapply Hs; eauto; now left|]. apply IH; auto. intros. eapply Hs; eauto. now right.
Qed.

Lemma terms_fold_fb e ids ss f ss' f' :
  gfold (fun '(ss, f) tok => if is_terminal_ident tok then '(s, f') <-! symbol_new f tok NTerm ; GOk (ss ++ [s], f') else GErr e) ids (ss, f) = GOk (ss', f') -> fb_same f f'.
Proof.
  intros H. apply (gfold_rel (fun a b => fb_same (snd a) (snd b))) in H; auto.
  - intros. apply fb_same_refl. - intros. eapply fb_same_trans; eauto.
  - intros [s1 f1] tok [s2 f2] _ H1. destruct (is_terminal_ident tok); [|discriminate]. apply gbind_ok in H1 as ([s f3] & H3 & H1). injection H1 as <- <-. eapply symbol_new_fb; eauto.
Qed.

Lemma rhs_elem_fb f e x f' : rhs_elem_sym f e = GOk (x, f') -> fb_same f f'.
Proof.
  destruct e as [[toks o] alias]. unfold rhs_elem_sym. destruct toks as [|tok [|tok2 toks]]; [discriminate| |]; intros H.
  - apply gbind_ok in H as (t & _ & H). destruct o; apply gbind_ok in H as ([s f1] & H1 & H); apply symbol_new_fb in H1.
    + destruct (find _ _) as [[y sl]|]; [injection H as <- <-; auto|]. apply gbind_ok in H as ([sl f2] & H2 & H). injection H as <- <-.
      apply symbol_new_fb in H2. eapply fb_same_trans; eauto.
    + now injection H as <- <-.
  - apply gbind_ok in H as ([mt f1] & H1 & H). apply symbol_new_fb in H1. apply gbind_ok in H as ([ss f2] & H2 & H). apply terms_fold_fb in H2.
    destruct (sy_kind (get_sym f2 mt)); try discriminate. injection H as <- <-. eapply fb_same_trans; [exact H1|]. eapply fb_same_trans; [exact H2|]. now apply (fb_same_upd f2).
Qed.

Lemma fallback_check_ok fuel f syms : forall fb, fallback_check fuel f syms fb = GOk tt -> forall x, fbs f fb x -> x <> fb -> ~ In x syms.
Proof.
  induction fuel as [|fuel IH]; intros fb H x Hx Hne; cbn [fallback_check] in H; [discriminate|].
  assert (HH : exists y, fbstep f fb y /\ fbs f y x).
  { clear -Hx Hne. induction Hx as [|b c Hx IH Hs]; [contradiction|]. destruct (Nat.eq_dec b fb) as [->|Hb].
    - exists c. split; auto. constructor.
    - destruct (IH Hb) as (y & Hy & Hyb). exists y. split; auto. econstructor; eauto. }
  destruct HH as (y & (s & Hs & Hc) & Hyx). rewrite (get_sym_nth _ _ _ Hs), Hc in H. destruct (smem y syms) eqn:Em; [discriminate|].
  destruct (Nat.eq_dec x y) as [->|Hxy]; [now apply smem_false|]. eapply IH; eauto.
Qed.

(** Adding the edges [s -> fb] for all [s] in [syms] when no [s] is reachable from [fb] *)
Lemma fb_edges_acyc fbx syms : forall f f', acyc f -> (forall x, fbs f fbx x -> ~ In x syms) ->
  gfold (fun f s => if opt_is_some (sy_fb (get_sym f s)) then GErr EFallbackDup
          else GOk (set_has_fb (set_syms f (upd (f_syms f) s (sym_set_fb (Some fbx)))) true)) syms f = GOk f' -> acyc f'.
Proof.
  induction syms as [|s syms IH]; intros f f' A Hf H; cbn [gfold] in H; [now injection H as <-|].
  apply gbind_ok in H as (f1 & H1 & H). destruct (opt_is_some (sy_fb (get_sym f s))) eqn:Eo; [discriminate|]. injection H1 as <-.
  set (f1 := set_has_fb _ _) in *.
  assert (S1 : forall i c, fbstep f1 i c -> fbstep f i c \/ i = s /\ c = fbx).
  { intros i c (s0 & H0 & Hc). unfold f1 in H0. cbn in H0. rewrite nth_error_upd in H0. destruct (Nat.eqb_spec s i) as [->|].
    - destruct (nth_error (f_syms f) i) as [s1|]; [|discriminate]. injection H0 as <-. cbn in Hc. injection Hc as <-. auto.
    - left. exists s0. auto. }
  assert (R1 : forall x, fbs f1 fbx x -> fbs f fbx x).
  { induction 1 as [|b c Hb IHb Hs]; [constructor|]. apply S1 in Hs as [Hs|[-> ->]]; [econstructor; eauto|]. exfalso. apply (Hf _ IHb). now left. }
  apply IH in H; auto.
  - assert (R2 : forall a x, fbs f1 a x -> fbs f a x \/ fbs f a s /\ fbs f fbx x).
    { induction 1 as [|b c Hb IHb Hs]; [left; constructor|]. apply S1 in Hs as [Hs|[-> ->]].
      - destruct IHb as [IHb|[H1 H2]]; [left; econstructor; eauto|right; split; auto; econstructor; eauto].
      - right. split; [|constructor]. destruct IHb as [IHb|[H1 H2]]; auto. }
    intros a c Hs Hc. apply S1 in Hs as [Hs|[-> ->]].
    + apply R2 in Hc as [Hc|[H1 H2]]; [eapply A; eauto|]. (* a -> c ->* s, fbx ->* a: fbx ->* s in f *)
      apply (Hf s); [|now left]. clear -H2 Hs H1. revert H1. assert (Hac : fbs f fbx c) by (econstructor; eauto). intros H1. clear H2 Hs. induction H1; auto. econstructor; eauto.
    + apply R1 in Hc. apply (Hf _ Hc). now left.
  - intros x Hx Hin. apply R1 in Hx. apply (Hf _ Hx). now right.
Qed.

Definition self_fallback (d : decl) : Prop := exists fb ids, d = DFallback fb ids /\ In fb ids.

Lemma acyc_syms f f' : f_syms f' = f_syms f -> acyc f -> acyc f'.
Proof. intros E. apply fb_same_acyc. intros i c. unfold fbstep. rewrite E. tauto. Qed.

Lemma parse_one_decl_acyc fuel f d f' : FI f -> acyc f -> ~ self_fallback d -> parse_one_decl fuel f d = GOk f' -> acyc f'.
Proof.
  intros F A Hd H. destruct d; cbn [parse_one_decl] in H;
    try (injection H as <-; exact A);
    try (match type of H with (if ?b then _ else _) = _ => destruct b; [discriminate|] end; injection H as <-; apply (acyc_syms f); [reflexivity|exact A]; fail).
  - apply gbind_ok in H as (k & Hk & H). apply gbind_ok in H as ([s f1] & Hn & H). destruct (opt_is_some _); [discriminate|]. injection H as <-.
    apply symbol_new_fb in Hn. eapply fb_same_acyc; [|exact A]. eapply fb_same_trans; [exact Hn|]. now apply fb_same_upd.
  - assert (A0 : acyc (set_precno f (S (f_prec f)))) by now apply (acyc_syms f). revert H. apply gfold_inv; auto.
    intros f1 tok f2 _ F1 H1. destruct (is_terminal_ident tok) eqn:U; [|discriminate]. apply gbind_ok in H1 as ([s f3] & Hn & H1).
    destruct (opt_is_some _); [discriminate|]. injection H1 as <-. apply symbol_new_fb in Hn. eapply fb_same_acyc; [|exact F1]. eapply fb_same_trans; [exact Hn|]. now apply fb_same_upd.
  - destruct (opt_is_some _); [discriminate|]. destruct (is_nonterminal_ident id) eqn:L; [|discriminate]. apply gbind_ok in H as ([s f1] & Hn & H).
    injection H as <-. apply symbol_new_fb in Hn. apply (acyc_syms f1); [reflexivity|]. exact (fb_same_acyc _ _ Hn A).
  - apply gbind_ok in H as ([syms f1] & Hg & H). destruct (terms_fold _ _ _ _ _ _ F (Forall_nil _) Hg) as (F1 & _ & E1 & T1 & N1).
    destruct (is_terminal_ident fb) eqn:U; [|discriminate]. apply gbind_ok in H as ([fbx f2] & Hn & H).
    destruct (symbol_new_spec f1 fb NTerm fbx f2 F1 U Hn) as (F2 & _ & E2 & N2 & _). apply gbind_ok in H as ([] & Hc & H).
    pose proof (terms_fold_fb _ _ _ _ _ _ Hg) as B1. pose proof (symbol_new_fb _ _ _ _ _ Hn) as B2.
    assert (A2 : acyc f2) by (eapply fb_same_acyc; [|exact A]; eapply fb_same_trans; eauto).
    eapply fb_edges_acyc; [exact A2| |exact H]. intros x Hx. destruct (Nat.eq_dec x fbx) as [->|Hne]; [|eapply fallback_check_ok; eauto].
    intros Hin. apply Hd. exists fb, ids. split; auto. cbn [List.length skipn] in N1.
    clear -Hin N1 N2 E2 F2. induction N1 as [|y nm ss ids Hy N1 IH]; [destruct Hin|]. destruct Hin as [->|Hin]; [|right; auto].
    left. apply (ext_nth _ _ _ _ E2) in Hy. congruence.
  - destruct (opt_is_some _); [discriminate|]. destruct (is_terminal_ident id) eqn:U; [|discriminate]. apply gbind_ok in H as ([s f1] & Hn & H).
    injection H as <-. apply symbol_new_fb in Hn. apply (acyc_syms f1); [reflexivity|]. exact (fb_same_acyc _ _ Hn A).
  - destruct (is_terminal_ident tk) eqn:U; [|discriminate]. apply gbind_ok in H as ([c f1] & Hn & H). apply symbol_new_fb in Hn. apply (fb_same_acyc _ _ Hn) in A.
    revert H. apply gfold_inv; auto. intros f2 id f3 _ F2 H2. destruct (is_terminal_ident id) eqn:Ui; [|discriminate]. apply gbind_ok in H2 as ([s f4] & Hn4 & H2).
    destruct (sy_kind (get_sym f4 c)) as [| |m] eqn:Ek; try discriminate. injection H2 as <-. apply symbol_new_fb in Hn4.
    eapply fb_same_acyc; [|exact F2]. eapply fb_same_trans; [exact Hn4|]. now apply fb_same_upd.
  - destruct (is_nonterminal_ident lhs) eqn:L; [|discriminate]. apply gbind_ok in H as ([l f1] & Hn & H). apply symbol_new_fb in Hn.
    apply gbind_ok in H as ([r f2] & Hg & H). apply gbind_ok in H as ([ps f3] & Hp & H).
    assert (B2 : fb_same f1 f2).
    { apply (gfold_rel (fun a b => fb_same (snd a) (snd b))) in Hg; auto.
      - intros. apply fb_same_refl. - intros. eapply fb_same_trans; eauto.
      - intros [s1 g1] e [s2 g2] _ H1. apply gbind_ok in H1 as ([x g3] & H3 & H1). injection H1 as <- <-. eapply rhs_elem_fb; eauto. }
    assert (B3 : fb_same f2 f3).
    { destruct prec as [id|]; [|injection Hp as <- <-; apply fb_same_refl]. destruct (is_terminal_ident id); [|discriminate].
      apply gbind_ok in Hp as ([s f4] & Hn4 & Hp). injection Hp as <- <-. eapply symbol_new_fb; eauto. }
    unfold create_rule in H. destruct (sy_kind (get_sym f3 l)); try discriminate. injection H as <-.
    assert (B : fb_same f f3) by (eapply fb_same_trans; [exact Hn|]; eapply fb_same_trans; eauto). apply (acyc_syms f3); [reflexivity|]. exact (fb_same_acyc _ _ B A).
Qed.

Theorem decls_acyc fuel ds f : (forall d, In d ds -> ~ self_fallback d) -> gfold (parse_one_decl fuel) ds fe_init = GOk f -> acyc f.
Proof.
  intros Hd H. enough (HH : FI f /\ acyc f) by apply HH. eapply (gfold_inv _ (fun f => FI f /\ acyc f)); [| |exact H].
  - intros s a s' Hin [F A] H1. split; [eapply parse_one_decl_FI; eauto|eapply parse_one_decl_acyc; eauto].
  - split; [apply init_FI|]. intros a c (s & Hs & Hc). destruct a as [|[|a]]; cbn in Hs; try (injection Hs as <-; discriminate). destruct a; discriminate.
Qed.
