(** The grammar handed to the back end is the declared one: every symbol has the precedence,
    type, fallback and class members its declarations give it, and the rules are the declared
    rules in order followed by two rules for each optional symbol. *)
From Coq Require Import Permutation.
From Verif Require Import Base Syntax BaseFacts FrontEnd Spec WfGrammar FrontFacts DeclSpec.
Open Scope string_scope. Open Scope nat_scope. Open Scope list_scope.

Definition name_at (f : fe) (i : nat) (n : string) : Prop := nth_error (names f) i = Some n.
Definition nm (f : fe) (i : nat) : string := nth i (names f) "".
Lemma name_at_nm f i n : name_at f i n -> nm f i = n.
Proof. apply nth_error_nth. Qed.
Lemma nm_ext f f' i : ext f f' -> i < List.length (names f) -> nm f' i = nm f i.
Proof. intros [x E] H. unfold nm. rewrite E. now apply app_nth1. Qed.
Lemma tid_lt ns i : tid ns i -> i < List.length ns.
Proof. intros (s & H & _). apply nth_error_Some. congruence. Qed.

Definition members_of (f : fe) (k : kind) : option (list string) :=
  match k with KMulti ms => Some (map (nm f) ms) | _ => None end.
Definition blank (s : symbol) : Prop := sy_prec s = None /\ sy_type s = None /\ sy_fb s = None.
Lemma blank_new n k u a : blank (mkSym n k None None u None a). Proof. unfold blank. auto. Qed.

Record AI (pf : string -> option prec) (tf : string -> option ty) (ff : string -> option string) (cf : string -> option (list string)) (f : fe) : Prop := {
  ai_fi : FI f;
  ai_sym : forall i s, nth_error (f_syms f) i = Some s -> sy_name s <> "" ->
    sy_prec s = pf (sy_name s) /\ sy_type s = tf (sy_name s) /\ option_map (nm f) (sy_fb s) = ff (sy_name s) /\ members_of f (sy_kind s) = cf (sy_name s);
  ai_anon : forall i s, nth_error (f_syms f) i = Some s -> sy_name s = "" -> blank s;
  ai_out : forall n, n <> "" -> ~ In n (names f) -> pf n = None /\ tf n = None /\ ff n = None /\ cf n = None;
  ai_opt : forall r l, In (r, l) (f_opt f) -> exists n, name_at f r n /\ (upper n \/ lower n) }.

Lemma AI_ext pf tf ff cf pf' tf' ff' cf' f : AI pf tf ff cf f -> (forall n, n <> "" -> pf' n = pf n) -> (forall n, n <> "" -> tf' n = tf n) ->
  (forall n, n <> "" -> ff' n = ff n) -> (forall n, n <> "" -> cf' n = cf n) -> AI pf' tf' ff' cf' f.
Proof.
  intros [F S A O OP] H1 H2 H3 H4. constructor; auto.
  - intros i s Hs Hn. rewrite H1, H2, H3, H4 by auto. eauto.
  - intros n Hn Hi. rewrite H1, H2, H3, H4 by auto. auto.
Qed.

Lemma AI_syms pf tf ff cf f f' : AI pf tf ff cf f -> f_syms f' = f_syms f -> f_opt f' = f_opt f -> FI f' -> AI pf tf ff cf f'.
Proof.
  intros [F S A O OP] E Eo F'. assert (N : names f' = names f) by (unfold names; now rewrite E).
  constructor; auto; unfold name_at; rewrite ?E, ?N, ?Eo; auto. unfold members_of, nm. rewrite N. exact S.
Qed.

(** Attributes of known symbols do not change when the table grows. *)
Lemma fb_names f f' i s : FI f -> ext f f' -> nth_error (f_syms f) i = Some s -> option_map (nm f') (sy_fb s) = option_map (nm f) (sy_fb s).
Proof.
  intros F E H. destruct (fi_syms f F _ _ H) as [_ K]. destruct (sy_fb s) as [c|]; auto. destruct (K c eq_refl) as (_ & T & _). cbn. f_equal. apply nm_ext; auto. now apply tid_lt.
Qed.
Lemma members_names f f' i s : FI f -> ext f f' -> nth_error (f_syms f) i = Some s -> members_of f' (sy_kind s) = members_of f (sy_kind s).
Proof.
  intros F E H. destruct (fi_syms f F _ _ H) as [K _]. destruct (sy_kind s) as [| |ms]; auto. destruct K as [_ K]. cbn. f_equal.
  apply map_ext_in. intros m Hm. rewrite Forall_forall in K. apply nm_ext; auto. now apply tid_lt, K.
Qed.

Definition fup {A} (h : string -> A) (n : string) (v : A) : string -> A := fun m => if String.eqb m n then v else h m.
Lemma fup_same {A} (h : string -> A) n v : fup h n v n = v.
Proof. unfold fup. now rewrite String.eqb_refl. Qed.
Lemma fup_other {A} (h : string -> A) n v m : m <> n -> fup h n v m = h m.
Proof. intros H. unfold fup. apply String.eqb_neq in H. now rewrite H. Qed.

Lemma AI_add pf tf ff cf f s cf' : AI pf tf ff cf f -> (sy_name s = "" \/ ~ In (sy_name s) (names f)) -> blank s ->
  (forall n, n <> sy_name s -> cf' n = cf n) ->
  FI (set_syms f (f_syms f ++ [s])) ->
  (sy_name s <> "" -> members_of f (sy_kind s) = cf' (sy_name s) /\ (forall ms, sy_kind s = KMulti ms -> ms = [])) ->
  AI pf tf ff cf' (set_syms f (f_syms f ++ [s])).
Proof.
  intros AA Hn Hb Hc F' Hk. destruct AA as [F S A O OP]. set (f' := set_syms f _) in *.
  assert (N : names f' = names f ++ [sy_name s]) by (unfold names, f'; cbn; now rewrite map_app).
  assert (E : ext f f') by (exists [sy_name s]; auto).
  assert (HX : forall i s0, nth_error (f_syms f') i = Some s0 -> nth_error (f_syms f) i = Some s0 \/ s0 = s).
  { intros i s0 H. unfold f' in H. cbn in H. destruct (Nat.lt_ge_cases i (List.length (f_syms f))) as [L|L]; [rewrite nth_error_app1 in H by auto; auto|].
    rewrite nth_error_app2 in H by auto. destruct (i - List.length (f_syms f)) as [|n]; [|destruct n; discriminate]. injection H as <-. auto. }
  constructor; auto.
  - intros i s0 H Hne. apply HX in H as [H| ->].
    + rewrite (fb_names f f' i s0), (members_names f f' i s0) by auto. destruct (S i s0 H Hne) as (A1 & A2 & A3 & A4). splits; auto.
      destruct (String.eqb_spec (sy_name s0) (sy_name s)) as [Eq|Hd]; [|now rewrite Hc].
      exfalso. destruct Hn as [Hn|Hn]; [congruence|]. apply Hn. rewrite <- Eq. unfold names. apply in_map. eapply nth_error_In; eauto.
    + destruct Hb as (B1 & B2 & B3). destruct Hn as [Hn|Hn]; [contradiction|]. destruct (O _ Hne Hn) as (O1 & O2 & O3 & O4). rewrite B1, B2, B3, O1, O2, O3. splits; auto.
      destruct (Hk Hne) as [Hk1 Hk2]. rewrite <- Hk1. destruct (sy_kind s) as [| |ms]; auto. now rewrite (Hk2 ms eq_refl).
  - intros i s0 H H0. apply HX in H as [H| ->]; eauto.
  - intros n Hne Hi. rewrite N in Hi. rewrite Hc; [apply O; auto|]; intros H; apply Hi; rewrite in_app_iff; subst; simpl; auto.
  - intros r l Hin. destruct (OP r l Hin) as (n & H1 & H2). exists n. split; auto. exact (ext_nth _ _ _ _ E H1).
Qed.

Lemma AI_upd pf tf ff cf pf' tf' ff' cf' f i f0 s : AI pf tf ff cf f -> nth_error (f_syms f) i = Some s -> (forall s, sy_name (f0 s) = sy_name s) ->
  FI (set_syms f (upd (f_syms f) i f0)) ->
  (sy_name s <> "" -> forall n, n <> sy_name s -> pf' n = pf n /\ tf' n = tf n /\ ff' n = ff n /\ cf' n = cf n) ->
  (sy_name s = "" -> forall n, pf' n = pf n /\ tf' n = tf n /\ ff' n = ff n /\ cf' n = cf n) ->
  (sy_name s <> "" -> sy_prec (f0 s) = pf' (sy_name s) /\ sy_type (f0 s) = tf' (sy_name s) /\ option_map (nm f) (sy_fb (f0 s)) = ff' (sy_name s) /\ members_of f (sy_kind (f0 s)) = cf' (sy_name s)) ->
  (sy_name s = "" -> blank (f0 s)) ->
  AI pf' tf' ff' cf' (set_syms f (upd (f_syms f) i f0)).
Proof.
  intros AA Hs Hn F' H1 H2 H3 H4. destruct AA as [F S A O OP]. set (f' := set_syms f _) in *.
  assert (N : names f' = names f) by now apply names_upd. assert (NM : nm f' = nm f) by (unfold nm; now rewrite N).
  assert (HX : forall j s0, nth_error (f_syms f') j = Some s0 -> j = i /\ s0 = f0 s \/ j <> i /\ nth_error (f_syms f) j = Some s0).
  { intros j s0 H. unfold f' in H. cbn in H. rewrite nth_error_upd in H. destruct (Nat.eqb_spec i j) as [->|]; [|right; auto]. rewrite Hs in H. injection H as <-. auto. }
  assert (HP : forall n, n <> sy_name s \/ sy_name s = "" -> pf' n = pf n /\ tf' n = tf n /\ ff' n = ff n /\ cf' n = cf n).
  { intros n [H|H]; [|now apply H2]. destruct (String.eqb_spec (sy_name s) ""); auto. }
  constructor; auto.
  - intros j s0 H Hne. apply HX in H as [[-> ->]|[Hj H]].
    + rewrite Hn in *. unfold members_of. rewrite NM. now apply H3.
    + unfold members_of. rewrite NM. destruct (HP (sy_name s0)) as (-> & -> & -> & ->); [|exact (S j s0 H Hne)].
      destruct (String.eqb_spec (sy_name s0) (sy_name s)) as [Eq|]; auto. exfalso. apply Hj. apply (fi_uniq f F j i (sy_name s0)); auto; apply names_nth; eauto.
  - intros j s0 H H0. apply HX in H as [[-> ->]|[Hj H]]; [|eauto]. rewrite Hn in H0. auto.
  - intros n Hne Hi. rewrite N in Hi. destruct (HP n) as (-> & -> & -> & ->); auto. left. intros ->. apply Hi. unfold names. apply in_map. eapply nth_error_In; eauto.
  - unfold name_at. rewrite N. exact OP.
Qed.

(** ** Growth of the table *)
Definition grow (f f' : fe) : Prop :=
  ext f f' /\ (forall i s, nth_error (f_syms f) i = Some s -> sy_name s = "" -> exists s', nth_error (f_syms f') i = Some s' /\ sy_kind s' = sy_kind s) /\
  exists k, f_opt f' = f_opt f ++ k.
Lemma grow_refl f : grow f f.
Proof. split; [apply ext_refl|]. split; [eauto|]. exists []. now rewrite app_nil_r. Qed.
Lemma grow_trans f1 f2 f3 : grow f1 f2 -> grow f2 f3 -> grow f1 f3.
Proof.
  intros (A1 & A2 & k & A3) (B1 & B2 & k' & B3). split; [eapply ext_trans; eauto|]. split.
  - intros i s H H0. destruct (A2 i s H H0) as (s' & H' & E'). assert (N' : sy_name s' = "").
    { assert (N1 : nth_error (names f1) i = Some "") by (apply names_nth; eauto). apply (ext_nth _ _ _ _ A1) in N1. apply names_nth in N1 as (x & Hx & Ex). congruence. }
    destruct (B2 i s' H' N') as (s2 & H2 & E2). exists s2. split; auto. congruence.
  - exists (k ++ k'). rewrite B3, A3. now rewrite app_assoc.
Qed.
Lemma grow_syms f f' : f_syms f' = f_syms f -> f_opt f' = f_opt f -> grow f f'.
Proof.
  intros E E2. split; [exists []; unfold names; now rewrite E, app_nil_r|]. split; [rewrite E; eauto|]. exists []. now rewrite E2, app_nil_r.
Qed.
Lemma grow_add f s : grow f (set_syms f (f_syms f ++ [s])).
Proof.
  split; [exists [sy_name s]; unfold names; cbn; now rewrite map_app|]. split; [|exists []; cbn; now rewrite app_nil_r].
  intros i s0 H _. exists s0. cbn. split; auto. now apply nth_error_ext.
Qed.
Lemma grow_upd f i f0 : (forall s, sy_name (f0 s) = sy_name s) -> (forall s, nth_error (f_syms f) i = Some s -> sy_name s = "" -> sy_kind (f0 s) = sy_kind s) ->
  grow f (set_syms f (upd (f_syms f) i f0)).
Proof.
  intros Hn Hk. split; [now apply ext_upd|]. split; [|exists []; cbn; now rewrite app_nil_r].
  intros j s H H0. cbn. rewrite nth_error_upd. destruct (Nat.eqb_spec i j) as [->|]; [|eauto]. rewrite H. cbn. eexists. split; [reflexivity|]. auto.
Qed.
(** A symbol created since [f] may still be filled in. *)
Lemma grow_upd_new f f2 i f0 : grow f f2 -> (forall s, sy_name (f0 s) = sy_name s) -> List.length (f_syms f) <= i -> grow f (set_syms f2 (upd (f_syms f2) i f0)).
Proof.
  intros (A1 & A2 & k & A3) Hn Hi. split; [eapply ext_trans; [exact A1|now apply ext_upd]|]. split; [|exists k; exact A3].
  intros j s H H0. destruct (A2 j s H H0) as (s' & H' & E'). cbn. rewrite nth_error_upd_other; eauto.
  assert (j < List.length (f_syms f)) by (apply nth_error_Some; congruence). lia.
Qed.

Lemma term_multi : NTerm <> NMulti. Proof. discriminate. Qed.
Lemma nonterm_multi : NNonTerm <> NMulti. Proof. discriminate. Qed.

(** ** Looking up or creating a symbol *)
Section New.
Context (pf : string -> option prec) (tf : string -> option ty) (ff : string -> option string) (cf : string -> option (list string)).

Lemma AI_incr f i : AI pf tf ff cf f -> AI pf tf ff cf (set_syms f (upd (f_syms f) i sym_incr_use)).
Proof.
  intros A. destruct (nth_error (f_syms f) i) as [s|] eqn:E.
  - eapply AI_upd; eauto; try (intros; splits; reflexivity).
    + apply FI_upd_same; auto. apply A.
    + intros Hne. exact (ai_sym _ _ _ _ _ A _ _ E Hne).
    + intros H0. exact (ai_anon _ _ _ _ _ A _ _ E H0).
  - eapply AI_syms; [exact A| |reflexivity|apply FI_upd_same; auto; apply A]. cbn. clear A. revert i E. induction (f_syms f) as [|a l IH]; intros [|i] E; simpl; auto; try discriminate. f_equal. auto.
Qed.
Lemma grow_incr f i : grow f (set_syms f (upd (f_syms f) i sym_incr_use)).
Proof. now apply grow_upd. Qed.

Lemma AI_new f name t i f' : AI pf tf ff cf f -> fits_kind t name -> t <> NMulti \/ name = "" -> symbol_new f name t = GOk (i, f') ->
  AI pf tf ff cf f' /\ grow f f' /\ name_at f' i name /\ (exists l, f' = set_syms f l) /\ (name = "" -> i = List.length (f_syms f)).
Proof.
  intros A Hfit Ht H. destruct (symbol_new_spec f name t i f' (ai_fi _ _ _ _ _ A) Hfit H) as (F' & Hl & _ & N' & _).
  assert (HG : AI pf tf ff cf f' /\ grow f f' /\ (name = "" -> i = List.length (f_syms f))); [|tauto].
  unfold symbol_new in H. destruct (String.eqb_spec name "") as [->|Hne].
  - injection H as <- <-. splits; auto; [|apply grow_add]. apply (AI_add pf tf ff cf f _ cf); auto; try apply blank_new. cbn. intros HH; now elim HH.
  - destruct (position _ _) as [j|] eqn:Ep.
    + destruct Ht as [Ht|Ht]; [|contradiction]. assert (E : i = j /\ f' = set_syms f (upd (f_syms f) j sym_incr_use)) by (destruct t; try contradiction; injection H; auto).
      destruct E as [-> ->]. splits; [now apply AI_incr|apply grow_incr|congruence].
    + injection H as <- <-. assert (Hx : ~ In name (names f)).
      { intros Hin. unfold names in Hin. apply in_map_iff in Hin as (s' & Es & Hin). eapply position_none in Ep; eauto. simpl in Ep. rewrite Es, String.eqb_refl in Ep. discriminate. }
      splits; [|apply grow_add|congruence]. apply (AI_add pf tf ff cf f _ cf); auto; try apply blank_new. cbn. intros _. destruct (ai_out _ _ _ _ _ A name Hne Hx) as (_ & _ & _ & ->).
      destruct Ht as [Ht|Ht]; [|contradiction]. destruct t; try contradiction; split; cbn; congruence.
Qed.

Lemma AI_term f name i f' : AI pf tf ff cf f -> upper name -> symbol_new f name NTerm = GOk (i, f') ->
  AI pf tf ff cf f' /\ grow f f' /\ name_at f' i name /\ exists l, f' = set_syms f l.
Proof. intros A U H. destruct (AI_new f name NTerm i f' A U (or_introl term_multi) H) as (H1 & H2 & H3 & H4 & _). auto. Qed.

Lemma AI_class f tk i f' : AI pf tf ff cf f -> upper tk -> symbol_new f tk NMulti = GOk (i, f') ->
  AI pf tf ff (fup cf tk (Some (match cf tk with Some l => l | None => [] end))) f' /\ grow f f' /\ name_at f' i tk /\ (exists l, f' = set_syms f l) /\
  exists s ms, nth_error (f_syms f') i = Some s /\ sy_kind s = KMulti ms.
Proof.
  intros A U H. pose proof (ai_fi _ _ _ _ _ A) as F. destruct (symbol_new_spec f tk NMulti i f' F (or_introl U) H) as (F' & Hl & _ & N' & HK).
  assert (HG : AI pf tf ff (fup cf tk (Some (match cf tk with Some l => l | None => [] end))) f' /\ grow f f').
  { assert (Hne : tk <> "") by (intros ->; now apply upper_empty in U).
    unfold symbol_new in H. destruct (String.eqb_spec tk "") as [|_]; [contradiction|]. destruct (position _ _) as [j|] eqn:Ep.
    - apply position_some in Ep as (s & Hs & Es & _). apply String.eqb_eq in Es. rewrite (get_sym_nth _ _ _ Hs) in H.
      pose proof (AI_incr f j A) as A1. pose proof (grow_incr f j) as G1. set (f1 := set_syms f (upd (f_syms f) j sym_incr_use)) in *.
      assert (Hs1 : nth_error (f_syms f1) j = Some (sym_incr_use s)) by (unfold f1; cbn; rewrite nth_error_upd_same, Hs; reflexivity).
      destruct (ai_sym _ _ _ _ _ A _ _ Hs) as (_ & _ & _ & Hc); [congruence|]. rewrite Es in Hc.
      destruct (sy_kind s) as [| |ms] eqn:Ek; [|discriminate|]; cbn in Hc.
      + injection H as <- <-. rewrite <- Hc. split.
        * refine (AI_upd pf tf ff cf _ _ _ _ f1 j (sym_set_kind (KMulti [])) _ A1 Hs1 _ F' _ _ _ _).
          -- reflexivity.
          -- cbn. rewrite Es. intros _ n Hn. rewrite fup_other by auto. auto.
          -- cbn. congruence.
          -- cbn. rewrite Es. intros _. rewrite fup_same. destruct (ai_sym _ _ _ _ _ A1 _ _ Hs1) as (B1 & B2 & B3 & _); [cbn; congruence|]. cbn in *. rewrite Es in *. splits; auto.
          -- cbn. congruence.
        * eapply grow_trans; [exact G1|]. apply (grow_upd f1); [reflexivity|]. intros s0 Hs0 H0. rewrite Hs1 in Hs0. injection Hs0 as <-. cbn in H0. congruence.
      + injection H as <- <-. split; auto. eapply AI_ext; [exact A1|auto..]. intros n Hn. rewrite <- Hc. unfold fup. destruct (String.eqb_spec n tk) as [->|]; auto.
    - injection H as <- <-. assert (Hx : ~ In tk (names f)).
      { intros Hin. unfold names in Hin. apply in_map_iff in Hin as (s' & Es & Hin). eapply position_none in Ep; eauto. simpl in Ep. rewrite Es, String.eqb_refl in Ep. discriminate. }
      split; [|apply grow_add]. destruct (ai_out _ _ _ _ _ A tk Hne Hx) as (_ & _ & _ & ->). apply (AI_add pf tf ff cf); auto; try apply blank_new.
      + intros n Hn. now apply fup_other.
      + cbn. rewrite fup_same. split; auto. intros ms HE. now injection HE. }
  destruct HG as [H1 H2]. splits; auto. destruct (HK eq_refl) as [ms Hms]. destruct (nth_error (f_syms f') i) as [s|] eqn:E.
  - exists s, ms. split; auto. now rewrite (get_sym_nth _ _ _ E) in Hms.
  - apply names_nth in N' as (x & Hx & _). congruence.
Qed.

(** A list of terminals, looked up in order *)
Lemma AI_terms (e : gerr) ids : forall f ss f', AI pf tf ff cf f ->
  gfold (fun '(ss, f) tok => if is_terminal_ident tok then '(s, f') <-! symbol_new f tok NTerm ; GOk (ss ++ [s], f') else GErr e) ids ([], f) = GOk (ss, f') ->
  AI pf tf ff cf f' /\ grow f f' /\ Forall2 (name_at f') ss ids /\ Forall (fun n => upper n) ids /\ exists l, f' = set_syms f l.
Proof.
  intros f ss f' A H.
  enough (HG : forall ids done ss0 f, AI pf tf ff cf f -> Forall2 (name_at f) ss0 done ->
     gfold (fun '(ss, f) tok => if is_terminal_ident tok then '(s, f') <-! symbol_new f tok NTerm ; GOk (ss ++ [s], f') else GErr e) ids (ss0, f) = GOk (ss, f') ->
     AI pf tf ff cf f' /\ grow f f' /\ Forall2 (name_at f') ss (done ++ ids) /\ Forall (fun n => upper n) ids /\ exists l, f' = set_syms f l).
  { exact (HG ids [] [] f A (Forall2_nil _) H). }
  clear. intros ids. induction ids as [|id ids IH]; intros done ss0 f A Hd H; cbn [gfold] in H.
  - injection H as -> ->. rewrite app_nil_r. splits; auto; [apply grow_refl|]. exists (f_syms f'). now destruct f'.
  - destruct (is_terminal_ident id) eqn:U; cbn [gbind] in H; [|discriminate]. apply gbind_ok in H as ([ss1 f1] & Ha & H). apply gbind_ok in Ha as ([s f2] & Ha0 & Ha). injection Ha as <- <-.
    destruct (AI_term f id s f2 A U Ha0) as (A1 & G1 & N1 & l & ->).
    destruct (IH (done ++ [id]) (ss0 ++ [s]) _ A1) as (H1 & H2 & H3 & H4 & l' & ->); auto.
    + apply Forall2_app; auto. eapply f2_impl; [|exact Hd]. intros a b Hab. eapply ext_nth; [apply G1|exact Hab].
    + rewrite <- app_assoc in H3. splits; auto; [eapply grow_trans; eauto|]. eexists. reflexivity.
Qed.
End New.

(** ** One element of a right-hand side *)
Definition elem_of (f : fe) (e : rhs_elem) (p : nat * bool) : Prop :=
  let '(toks, o, alias) := e in
  snd p = opt_is_some alias /\
  match toks with
  | [] => False
  | [tok] => (upper tok \/ lower tok) /\ if (o : bool) then exists y, In (y, fst p) (f_opt f) /\ name_at f y tok else name_at f (fst p) tok
  | _ => Forall (fun n => upper n) toks /\ name_at f (fst p) "" /\ exists s ms, nth_error (f_syms f) (fst p) = Some s /\ sy_kind s = KMulti ms /\ Forall2 (name_at f) ms toks
  end.

Lemma elem_grow f f' e p : grow f f' -> elem_of f e p -> elem_of f' e p.
Proof.
  intros (A1 & A2 & k & A3). destruct e as [[toks o] alias]. unfold elem_of. intros [H1 H]. split; auto.
  assert (HN : forall i n, name_at f i n -> name_at f' i n) by (intros; eapply ext_nth; eauto).
  destruct toks as [|tok [|tok2 toks]]; auto.
  - destruct H as [Hid H]. split; auto. destruct o; auto. destruct H as (y & Hy & Hn). exists y. split; auto. rewrite A3, in_app_iff. auto.
  - destruct H as (Hu & Hn & s & ms & Hs & Hk & Hm). splits; auto. apply names_nth in Hn as (s0 & Hs0 & E0). assert (s0 = s) by congruence. subst s0.
    destruct (A2 _ _ Hs E0) as (s' & Hs' & E'). exists s', ms. splits; auto; [congruence|]. eapply f2_impl; [|exact Hm]. auto.
Qed.

Lemma named_tids f ss ids : Forall2 (name_at f) ss ids -> Forall (fun n => upper n) ids -> Forall (tid (names f)) ss.
Proof. induction 1 as [|a b x y Hab T IH]; intros U; constructor; inversion U; subst; auto. exists b. auto. Qed.

Lemma AI_rhs_elem pf tf ff cf f e p f' : AI pf tf ff cf f -> rhs_elem_sym f e = GOk (p, f') ->
  AI pf tf ff cf f' /\ grow f f' /\ elem_of f' e p /\ exists l k, f' = set_opt (set_syms f l) (f_opt f ++ k).
Proof.
  intros A H. pose proof (ai_fi _ _ _ _ _ A) as F. destruct e as [[toks o] alias]. unfold rhs_elem_sym in H. destruct toks as [|tok [|tok2 toks]]; [discriminate| |].
  - apply gbind_ok in H as (t & Ht & H).
    assert (Hfit : fits_kind t tok /\ t <> NMulti /\ (upper tok \/ lower tok)).
    { destruct (is_terminal_ident tok) eqn:U; [injection Ht as <-; splits; try discriminate; auto|].
      destruct (is_nonterminal_ident tok) eqn:L; [injection Ht as <-; splits; try discriminate; auto|discriminate]. }
    destruct Hfit as (Hfit & Ht' & Hid). destruct o.
    + apply gbind_ok in H as ([sr f1] & Hn & H). destruct (ident_new f tok t sr f1 F Ht Hn) as (F1 & _ & E1 & R1 & _).
      destruct (AI_new _ _ _ _ f tok t sr f1 A Hfit (or_introl Ht') Hn) as (A1 & G1 & N1 & (l & ->) & _).
      destruct (find _ _) as [[y sl]|] eqn:Ef.
      * injection H as <- <-. splits; auto.
        -- cbn. splits; auto. apply find_some in Ef as [Hin Ey]. cbn in Ey. apply Nat.eqb_eq in Ey. subst y. exists sr. auto.
        -- exists l, []. rewrite app_nil_r. now destruct f.
      * apply gbind_ok in H as ([sl f2] & Hn2 & H). injection H as <- <-.
        destruct (opt_new _ sr sl f2 F1 R1 Ef Hn2) as (F2 & E2 & N2 & _ & E).
        assert (A2 : AI pf tf ff cf (set_opt f2 (f_opt f2 ++ [(sr, sl)]))).
        { assert (A2 : AI pf tf ff cf (set_opt f2 (f_opt f2 ++ [(sr, sl)])) \/ True) by auto. clear A2.
          set (f3 := set_opt f2 _) in *. destruct A1 as [_ S1 An O1 OP1]. 
          assert (Hs3 : f_syms f3 = l ++ [mkSym (optional_name (List.length (f_opt f))) KNonTerm None None 1 None 0]) by (unfold f3; rewrite E; reflexivity).
          assert (N3 : names f3 = names (set_syms f l) ++ [optional_name (List.length (f_opt f))]) by (unfold names; rewrite Hs3, map_app; reflexivity).
          assert (Hfr : ~ In (optional_name (List.length (f_opt f))) (names (set_syms f l))).
          { intros Hin. apply In_nth_error in Hin as [q Hq]. apply (fi_optc _ F1) in Hq. cbn in Hq. lia. }
          assert (E3 : ext (set_syms f l) f3) by (eexists; exact N3).
          assert (HX : forall i s0, nth_error (f_syms f3) i = Some s0 -> nth_error l i = Some s0 \/ s0 = mkSym (optional_name (List.length (f_opt f))) KNonTerm None None 1 None 0).
          { intros i s0 H. rewrite Hs3 in H. destruct (Nat.lt_ge_cases i (List.length l)) as [L|L]; [rewrite nth_error_app1 in H by auto; auto|].
            rewrite nth_error_app2 in H by auto. destruct (i - List.length l) as [|n]; [|destruct n; discriminate]. injection H as <-. auto. }
          constructor; auto.
          - intros i s0 H Hne. apply HX in H as [H| ->].
            + rewrite (fb_names (set_syms f l) f3 i s0), (members_names (set_syms f l) f3 i s0) by auto. eauto.
            + destruct (O1 (optional_name (List.length (f_opt f)))) as (O2 & O3 & O4 & O5); [discriminate|auto|]. cbn [sy_name sy_prec sy_type sy_fb sy_kind option_map members_of]. auto.
          - intros i s0 H H0. apply HX in H as [H| ->]; [eauto|]. discriminate.
          - intros n Hne Hi. apply O1; auto. intros Hin. apply Hi. rewrite N3, in_app_iff. auto.
          - intros r0 l0 Hin. unfold f3 in Hin. rewrite E in Hin. cbn in Hin. apply in_app_iff in Hin as [Hin|[Hin|[]]].
            + destruct (OP1 r0 l0 Hin) as (n & H1 & H2). exists n. split; auto. exact (ext_nth _ _ _ _ E3 H1).
            + injection Hin as <- <-. exists tok. split; auto. exact (ext_nth _ _ _ _ E3 N1). }
        assert (G2 : grow (set_syms f l) (set_opt f2 (f_opt f2 ++ [(sr, sl)]))).
        { split; [exact E2|]. split; [|exists [(sr, sl)]; now rewrite E]. intros i s Hs H0. exists s. split; auto. rewrite E. cbn. now apply nth_error_ext. }
        splits; auto.
        -- eapply grow_trans; eauto.
        -- cbn. splits; auto. exists sr. split; [apply in_app_iff; right; now left|]. exact (ext_nth _ _ _ _ E2 N1).
        -- rewrite E. exists (l ++ [mkSym (optional_name (List.length (f_opt f))) KNonTerm None None 1 None 0]), [(sr, sl)]. reflexivity.
    + apply gbind_ok in H as ([s f1] & Hn & H). injection H as <- <-.
      destruct (AI_new _ _ _ _ f tok t s f1 A Hfit (or_introl Ht') Hn) as (A1 & G1 & N1 & (l & ->) & _). splits; auto; [cbn; auto|]. exists l, []. rewrite app_nil_r. now destruct f.
  - apply gbind_ok in H as ([mt f1] & Hn & H).
    destruct (AI_new _ _ _ _ f "" NMulti mt f1 A (or_intror eq_refl) (or_intror eq_refl) Hn) as (A1 & G1 & N1 & (l & ->) & Emt). specialize (Emt eq_refl).
    apply gbind_ok in H as ([ss f2] & Hg & H).
    destruct (AI_terms _ _ _ _ _ _ _ _ _ A1 Hg) as (A2 & G2 & T2 & U2 & l' & ->).
    destruct (sy_kind (get_sym _ mt)) as [| |m] eqn:Ek; try discriminate.
    assert (Em : m = []).
    { apply names_nth in N1 as (s1 & Hs1 & En1). destruct G2 as (_ & G2 & _). destruct (G2 _ _ Hs1 En1) as (s2 & Hs2 & E2). rewrite (get_sym_nth _ _ _ Hs2), E2 in Ek.
      unfold symbol_new in Hn. cbn in Hn. injection Hn as <- Hl. subst l.
      cbn in Hs1. rewrite nth_error_app2, Nat.sub_diag in Hs1 by auto. injection Hs1 as <-. cbn in Ek. now injection Ek. }
    subst m. cbn [app] in H. set (f2 := set_syms (set_syms f l) l') in *. injection H as <- <-.
    assert (N2 : name_at f2 mt "") by (eapply ext_nth; [apply G2|exact N1]).
    pose proof N2 as N2'. apply names_nth in N2' as (s & Hs & En). rewrite (get_sym_nth _ _ _ Hs) in Ek.
    assert (F3 : FI (set_syms f2 (upd (f_syms f2) mt (sym_set_kind (KMulti ss))))).
    { apply FI_upd; [apply A2|reflexivity|]. intros s0 Hs0. assert (s0 = s) by congruence. subst s0. destruct (fi_syms _ (ai_fi _ _ _ _ _ A2) _ _ Hs) as [K1 K2]. split; auto.
      cbn. rewrite Ek in K1. cbn in K1. destruct K1 as [K1 _]. split; auto. apply (named_tids f2 _ _ T2 U2). }
    splits.
    + refine (AI_upd pf tf ff cf pf tf ff cf f2 mt (sym_set_kind (KMulti ss)) s A2 Hs _ F3 _ _ _ _); auto; try congruence.
      intros H0. exact (ai_anon _ _ _ _ _ A2 _ _ Hs H0).
    + apply grow_upd_new; [eapply grow_trans; eauto|reflexivity|lia].
    + assert (E3 : ext f2 (set_syms f2 (upd (f_syms f2) mt (sym_set_kind (KMulti ss))))) by now apply ext_upd.
      unfold elem_of. splits; auto; [exact (ext_nth _ _ _ _ E3 N2)|]. exists (sym_set_kind (KMulti ss) s), ss. splits; auto.
      * cbn. rewrite nth_error_upd_same. cbn in Hs. now rewrite Hs.
      * eapply f2_impl; [|exact T2]. intros a b Hab. exact (ext_nth _ _ _ _ E3 Hab).
    + exists (upd (f_syms f2) mt (sym_set_kind (KMulti ss))), []. now rewrite app_nil_r.
Qed.

(** ** Folds over the names of one declaration *)
Lemma listed_cons n id ids : listed n (id :: ids) = (String.eqb n id || listed n ids)%bool.
Proof. reflexivity. Qed.

Lemma name_sym f i n : name_at f i n -> exists s, nth_error (f_syms f) i = Some s /\ sy_name s = n.
Proof. intros H. now apply names_nth in H. Qed.

Lemma AI_assoc tf ff cf a ids : forall pf f f', AI pf tf ff cf f ->
  gfold (fun f tok => if is_terminal_ident tok then
          '(s, f1) <-! symbol_new f tok NTerm ;
          if opt_is_some (sy_prec (get_sym f1 s)) then GErr EPrecDup
          else GOk (set_syms f1 (upd (f_syms f1) s (sym_set_prec (Some (f_prec f1, a)))))
        else GErr EPrecNonTerm) ids f = GOk f' ->
  AI (fun n => match pf n with Some q => Some q | None => if listed n ids then Some (f_prec f, a) else None end) tf ff cf f' /\ grow f f' /\ exists l, f' = set_syms f l.
Proof.
  induction ids as [|id ids IH]; intros pf f f' A H; cbn [gfold] in H.
  - injection H as <-. splits; [|apply grow_refl|exists (f_syms f); now destruct f]. eapply AI_ext; [exact A|auto..]. intros n _. cbn. now destruct (pf n).
  - apply gbind_ok in H as (f2 & H2 & H). destruct (is_terminal_ident id) eqn:U; [|discriminate]. apply gbind_ok in H2 as ([s f1] & Hn & H2).
    destruct (AI_term _ _ _ _ f id s f1 A U Hn) as (A1 & G1 & N1 & l & ->). destruct (opt_is_some _) eqn:Eo; [discriminate|]. injection H2 as <-.
    apply name_sym in N1 as (y & Hy & Ey). rewrite (get_sym_nth _ _ _ Hy) in Eo. assert (Hne : sy_name y <> "") by (rewrite Ey; intros ->; now apply upper_empty in U).
    destruct (ai_sym _ _ _ _ _ A1 _ _ Hy Hne) as (P1 & P2 & P3 & P4). rewrite Ey in *. destruct (sy_prec y) as [q|] eqn:Eq; [discriminate|].
    set (f1 := set_syms f l) in *. set (f2 := set_syms f1 (upd (f_syms f1) s (sym_set_prec (Some (f_prec f1, a))))) in *.
    assert (A2 : AI (fup pf id (Some (f_prec f, a))) tf ff cf f2).
    { refine (AI_upd pf tf ff cf _ tf ff cf f1 s (sym_set_prec (Some (f_prec f1, a))) y A1 Hy _ _ _ _ _ _).
      - reflexivity.
      - apply FI_upd_same; auto. apply A1.
      - rewrite Ey. intros _ n Hn'. splits; auto. now apply fup_other.
      - congruence.
      - rewrite Ey. intros _. rewrite fup_same. splits; auto.
      - congruence. }
    destruct (IH _ _ _ A2 H) as (A3 & G3 & l3 & E3). splits.
    + eapply AI_ext; [exact A3|auto..]. intros n Hn'. cbn beta. change (f_prec f2) with (f_prec f). rewrite listed_cons. unfold fup.
      destruct (String.eqb_spec n id) as [->|]; cbn [orb]; auto. now rewrite <- P1.
    + eapply grow_trans; [exact G1|]. eapply grow_trans; [|exact G3]. now apply grow_upd.
    + exists l3. exact E3.
Qed.

Lemma AI_fallback pf tf cf fb fbs syms : forall ids ff f f', AI pf tf ff cf f -> Forall2 (name_at f) syms ids -> Forall (fun n => upper n) ids -> name_at f fbs fb -> upper fb ->
  gfold (fun f s => if opt_is_some (sy_fb (get_sym f s)) then GErr EFallbackDup
          else GOk (set_has_fb (set_syms f (upd (f_syms f) s (sym_set_fb (Some fbs)))) true)) syms f = GOk f' ->
  AI pf tf (fun n => match ff n with Some q => Some q | None => if listed n ids then Some fb else None end) cf f' /\ grow f f' /\
  exists l hf, f' = set_has_fb (set_syms f l) hf.
Proof.
  induction syms as [|s syms IH]; intros ids ff f f' A Hids Hu Hfb Ufb H; inversion Hids as [|? id ? ids' Hid Hids']; subst; cbn [gfold] in H.
  - injection H as <-. splits; [|apply grow_refl|exists (f_syms f), (f_has_fb f); now destruct f]. eapply AI_ext; [exact A|auto..]. intros n _. cbn. now destruct (ff n).
  - apply gbind_ok in H as (f2 & H2 & H). destruct (opt_is_some _) eqn:Eo; [discriminate|]. injection H2 as <-. inversion Hu as [|? ? U Us]; subst.
    apply name_sym in Hid as (y & Hy & Ey). rewrite (get_sym_nth _ _ _ Hy) in Eo. assert (Hne : sy_name y <> "") by (rewrite Ey; intros ->; now apply upper_empty in U).
    destruct (ai_sym _ _ _ _ _ A _ _ Hy Hne) as (P1 & P2 & P3 & P4). rewrite Ey in *. destruct (sy_fb y) as [q|] eqn:Eq; [discriminate|]. cbn in P3.
    pose proof (ai_fi _ _ _ _ _ A) as F.
    set (f0 := set_has_fb f true). assert (A0 : AI pf tf ff cf f0) by (eapply AI_syms; [exact A|reflexivity|reflexivity|now apply FI_set_has_fb]).
    change (set_has_fb (set_syms f (upd (f_syms f) s (sym_set_fb (Some fbs)))) true) with (set_syms f0 (upd (f_syms f0) s (sym_set_fb (Some fbs)))) in H.
    set (f2 := set_syms f0 _) in *.
    assert (F2 : FI f2).
    { apply (FI_upd f0 s (sym_set_fb (Some fbs))); [apply A0|reflexivity|]. intros s0 Hs0. split; [apply (fi_syms _ (ai_fi _ _ _ _ _ A0) _ _ Hs0)|].
      cbn. injection 1 as <-. assert (s0 = y) by (cbn in Hs0; congruence). subst s0. rewrite Ey. splits; auto. exists fb. auto. }
    assert (A2 : AI pf tf (fup ff id (Some fb)) cf f2).
    { refine (AI_upd pf tf ff cf pf tf _ cf f0 s (sym_set_fb (Some fbs)) y A0 Hy _ F2 _ _ _ _).
      - reflexivity.
      - rewrite Ey. intros _ n Hn'. splits; auto. now apply fup_other.
      - congruence.
      - rewrite Ey. intros _. rewrite fup_same. splits; auto. cbn. f_equal. now apply name_at_nm.
      - congruence. }
    assert (G2 : grow f f2). { eapply grow_trans; [apply (grow_syms f f0); reflexivity|]. now apply grow_upd. }
    assert (N2 : names f2 = names f) by (unfold f2, names; cbn; now apply names_upd).
    destruct (IH ids' _ f2 f' A2) as (A3 & G3 & l3 & hf & E3); auto.
    + eapply f2_impl; [|exact Hids']. unfold name_at. now rewrite N2.
    + unfold name_at. now rewrite N2.
    + splits.
      * eapply AI_ext; [exact A3|auto..]. intros n Hn'. cbn beta. rewrite listed_cons. unfold fup. destruct (String.eqb_spec n id) as [->|]; cbn [orb]; auto. now rewrite <- P3.
      * eapply grow_trans; eauto.
      * exists l3, hf. rewrite E3. reflexivity.
Qed.

Lemma AI_classes pf tf ff tk c ids : forall cf f f' old, AI pf tf ff cf f -> name_at f c tk -> upper tk -> cf tk = Some old ->
  gfold (fun f id => if is_terminal_ident id then
            '(s, f') <-! symbol_new f id NTerm ;
            match sy_kind (get_sym f' c) with
            | KMulti m => GOk (set_syms f' (upd (f_syms f') c (sym_set_kind (KMulti (m ++ [s])))))
            | _ => GPanic
            end
          else GErr EClassIds) ids f = GOk f' ->
  AI pf tf ff (fup cf tk (Some (old ++ ids))) f' /\ grow f f' /\ exists l, f' = set_syms f l.
Proof.
  induction ids as [|id ids IH]; intros cf f f' old A Hc U Ho H; cbn [gfold] in H.
  - injection H as <-. splits; [|apply grow_refl|exists (f_syms f); now destruct f]. eapply AI_ext; [exact A|auto..]. intros n _. rewrite app_nil_r. unfold fup.
    destruct (String.eqb_spec n tk) as [->|]; auto.
  - apply gbind_ok in H as (f2 & H2 & H). destruct (is_terminal_ident id) eqn:Ui; [|discriminate]. apply gbind_ok in H2 as ([s f1] & Hn & H2).
    destruct (AI_term _ _ _ _ f id s f1 A Ui Hn) as (A1 & G1 & N1 & l & ->). set (f1 := set_syms f l) in *.
    destruct (sy_kind (get_sym f1 c)) as [| |m] eqn:Ek; try discriminate. injection H2 as <-.
    assert (Hc1 : name_at f1 c tk) by (eapply ext_nth; [apply G1|exact Hc]). pose proof Hc1 as Hc1'. apply name_sym in Hc1' as (y & Hy & Ey).
    rewrite (get_sym_nth _ _ _ Hy) in Ek. assert (Hne : sy_name y <> "") by (rewrite Ey; intros ->; now apply upper_empty in U).
    destruct (ai_sym _ _ _ _ _ A1 _ _ Hy Hne) as (P1 & P2 & P3 & P4). rewrite Ey in *. rewrite Ek in P4. cbn in P4. rewrite Ho in P4. injection P4 as P4.
    set (f2 := set_syms f1 (upd (f_syms f1) c (sym_set_kind (KMulti (m ++ [s]))))) in *.
    assert (F2 : FI f2).
    { apply (FI_upd f1 c (sym_set_kind (KMulti (m ++ [s])))); [apply A1|reflexivity|]. intros s0 Hs0. assert (s0 = y) by congruence. subst s0.
      destruct (fi_syms _ (ai_fi _ _ _ _ _ A1) _ _ Hy) as [K1 K2]. split; auto. cbn. rewrite Ek in K1. destruct K1 as [K1 K3]. split; auto. apply Forall_app. split; auto. constructor; auto. exists id. auto. }
    assert (A2 : AI pf tf ff (fup cf tk (Some (old ++ [id]))) f2).
    { refine (AI_upd pf tf ff cf pf tf ff _ f1 c (sym_set_kind (KMulti (m ++ [s]))) y A1 Hy _ F2 _ _ _ _).
      - reflexivity.
      - rewrite Ey. intros _ n Hn'. splits; auto. now apply fup_other.
      - congruence.
      - rewrite Ey. intros _. rewrite fup_same. splits; auto. cbn [sym_set_kind sy_kind members_of]. rewrite map_app, P4. cbn [map]. now rewrite (name_at_nm _ _ _ N1).
      - congruence. }
    assert (G2 : grow f f2). { eapply grow_trans; [exact G1|]. apply grow_upd; [reflexivity|]. intros s0 Hs0 H0. assert (s0 = y) by congruence. subst s0. congruence. }
    assert (Hc2 : name_at f2 c tk) by (eapply ext_nth; [apply G2|exact Hc]).
    destruct (IH _ f2 f' _ A2 Hc2 U (fup_same _ _ _) H) as (A3 & G3 & l3 & E3). splits.
    + eapply AI_ext; [exact A3|auto..]. intros n Hn'. rewrite <- app_assoc. unfold fup. destruct (String.eqb n tk); auto.
    + eapply grow_trans; eauto.
    + exists l3. exact E3.
Qed.

(** ** Reading one more declaration *)
Lemma first_of_app {A B} (h : A -> option B) l1 l2 : first_of h (l1 ++ l2) = match first_of h l1 with Some b => Some b | None => first_of h l2 end.
Proof. induction l1 as [|a l1 IH]; cbn; auto. destruct (h a); auto. Qed.
Lemma assoc_snoc ds d n : forall k, assoc_from k (ds ++ [d]) n = match assoc_from k ds n with Some q => Some q | None =>
   match d with DAssoc a ids => if listed n ids then Some (S (k + assoc_lines ds), a) else None | _ => None end end.
Proof.
  induction ds as [|d0 ds IH]; intros k; cbn [app assoc_from assoc_lines].
  - rewrite Nat.add_0_r. now destruct d.
  - destruct d0; auto. destruct (listed n ids); auto. rewrite IH. now rewrite Nat.add_succ_r, Nat.add_succ_l.
Qed.
Lemma lines_snoc ds d : assoc_lines (ds ++ [d]) = match d with DAssoc _ _ => S (assoc_lines ds) | _ => assoc_lines ds end.
Proof. induction ds as [|d0 ds IH]; cbn; [now destruct d|]. destruct d0; auto. rewrite IH. now destruct d. Qed.
Lemma class_snoc ds d n : class_of (ds ++ [d]) n = match class_line n d with Some l => Some (match class_of ds n with Some l0 => l0 | None => [] end ++ l) | None => class_of ds n end.
Proof.
  induction ds as [|d0 ds IH]; cbn [app class_of].
  - destruct (class_line n d); auto.
  - rewrite IH. destruct (class_line n d0), (class_line n d), (class_of ds n); auto; rewrite ?app_nil_r, ?app_assoc; auto.
Qed.
Lemma rules_snoc ds d : rules_in (ds ++ [d]) = rules_in ds ++ match d with DRule l r c p => [mkDr l r c p] | _ => [] end.
Proof. induction ds as [|d0 ds IH]; cbn; [now destruct d|]. rewrite IH. now destruct d0. Qed.

Definition opt_name (f : fe) (o : option nat) (n : option string) : Prop :=
  match o, n with None, None => True | Some i, Some m => name_at f i m | _, _ => False end.
Lemma opt_name_ext f f' o n : ext f f' -> opt_name f o n -> opt_name f' o n.
Proof. intros E. destruct o, n; auto. intros H. eapply ext_nth; eauto. Qed.

Definition rule_of (f : fe) (d : drule) (ru : rule) : Prop :=
  name_at f (r_lhs ru) (d_lhs d) /\ Forall2 (elem_of f) (d_rhs d) (r_rhs ru) /\
  r_code ru = match d_code d with Some c => CUser c | None => CAbsent end /\ opt_name f (r_precsym ru) (d_prec d) /\ r_prec ru = None.
Lemma rule_grow f f' d ru : grow f f' -> rule_of f d ru -> rule_of f' d ru.
Proof.
  intros G (H1 & H2 & H3 & H4 & H5). unfold rule_of. splits; auto.
  - eapply ext_nth; [apply G|exact H1].
  - eapply f2_impl; [|exact H2]. intros. eapply elem_grow; eauto.
  - eapply opt_name_ext; [apply G|auto].
Qed.

Record DI (ds : list decl) (f : fe) : Prop := {
  di_ai : AI (assoc_of ds) (type_of ds) (fallback_of ds) (class_of ds) f;
  di_prec : f_prec f = assoc_lines ds;
  di_rules : Forall2 (rule_of f) (rules_in ds) (f_rules f);
  di_wild : opt_name f (f_wild f) (wildcard_of ds);
  di_start : opt_name f (f_start f) (start_line ds);
  di_dt : f_default_type f = default_type_of ds;
  di_et : f_extra_token f = extra_token_of ds }.

Lemma init_DI : DI [] fe_init.
Proof.
  constructor; cbn; auto. constructor; cbn; [apply init_FI| | |auto|intros r l []].
  - intros [|[|i]] s; cbn; intros H; try (injection H as <-); try (destruct i; discriminate); auto.
  - intros [|[|i]] s; cbn; intros H; try (injection H as <-); try (destruct i; discriminate); discriminate.
Qed.

(** What one more declaration changes *)
Lemma DI_frame ds d f f' : DI ds f -> AI (assoc_of (ds ++ [d])) (type_of (ds ++ [d])) (fallback_of (ds ++ [d])) (class_of (ds ++ [d])) f' -> grow f f' ->
  f_prec f' = assoc_lines (ds ++ [d]) ->
  (exists l, f_rules f' = f_rules f ++ l /\ Forall2 (rule_of f') (match d with DRule l r c p => [mkDr l r c p] | _ => [] end) l) ->
  (f_wild f' = f_wild f /\ wildcard_of (ds ++ [d]) = wildcard_of ds \/ opt_name f' (f_wild f') (wildcard_of (ds ++ [d]))) ->
  (f_start f' = f_start f /\ start_line (ds ++ [d]) = start_line ds \/ opt_name f' (f_start f') (start_line (ds ++ [d]))) ->
  f_default_type f' = default_type_of (ds ++ [d]) -> f_extra_token f' = extra_token_of (ds ++ [d]) -> DI (ds ++ [d]) f'.
Proof.
  intros D A' G Hp (l & Hr & Hl) Hw Hs Hd He. constructor; auto.
  - rewrite rules_snoc, Hr. apply Forall2_app; auto. eapply f2_impl; [|apply (di_rules _ _ D)]. intros. eapply rule_grow; eauto.
  - destruct Hw as [[-> ->]|Hw]; auto. eapply opt_name_ext; [apply G|apply D].
  - destruct Hs as [[-> ->]|Hs]; auto. eapply opt_name_ext; [apply G|apply D].
Qed.

Lemma none_if_some {A} (o : option A) : opt_is_some o = false -> o = None.
Proof. now destruct o. Qed.
Lemma snoc_same {A} (o : option A) : match o with Some q => Some q | None => None end = o. Proof. now destruct o. Qed.

(** The functions of the declarations after one more declaration *)
Section Snoc.
Context (ds : list decl) (d : decl).
Lemma assoc_of_snoc n : assoc_of (ds ++ [d]) n = match assoc_of ds n with Some q => Some q | None =>
   match d with DAssoc a ids => if listed n ids then Some (S (assoc_lines ds), a) else None | _ => None end end.
Proof. apply (assoc_snoc ds d n 0). Qed.
Lemma type_of_snoc n : type_of (ds ++ [d]) n = match type_of ds n with Some q => Some q | None =>
   match d with DType _ m (Some t) => if String.eqb n m then Some t else None | _ => None end end.
Proof. unfold type_of. rewrite first_of_app. cbn [first_of]. now rewrite snoc_same. Qed.
Lemma fallback_of_snoc n : fallback_of (ds ++ [d]) n = match fallback_of ds n with Some q => Some q | None =>
   match d with DFallback fb ids => if listed n ids then Some fb else None | _ => None end end.
Proof. unfold fallback_of. rewrite first_of_app. cbn [first_of]. now rewrite snoc_same. Qed.
Lemma wildcard_of_snoc : wildcard_of (ds ++ [d]) = match wildcard_of ds with Some q => Some q | None => match d with DWildcard n => Some n | _ => None end end.
Proof. unfold wildcard_of. rewrite first_of_app. cbn [first_of]. now rewrite snoc_same. Qed.
Lemma start_line_snoc : start_line (ds ++ [d]) = match start_line ds with Some q => Some q | None => match d with DStartSymbol n => Some n | _ => None end end.
Proof. unfold start_line. rewrite first_of_app. cbn [first_of]. now rewrite snoc_same. Qed.
Lemma default_type_of_snoc : default_type_of (ds ++ [d]) = match default_type_of ds with Some q => Some q | None => match d with DDefaultType t => Some t | _ => None end end.
Proof. unfold default_type_of. rewrite first_of_app. cbn [first_of]. now rewrite snoc_same. Qed.
Lemma extra_token_of_snoc : extra_token_of (ds ++ [d]) = match extra_token_of ds with Some q => Some q | None => match d with DExtraToken t => Some t | _ => None end end.
Proof. unfold extra_token_of. rewrite first_of_app. cbn [first_of]. now rewrite snoc_same. Qed.
End Snoc.

Definition plain (d : decl) : bool :=
  match d with DType _ _ _ | DAssoc _ _ | DStartSymbol _ | DFallback _ _ | DWildcard _ | DTokenClass _ _ | DRule _ _ _ _ => false | _ => true end.

Lemma DI_plain ds d f f' : DI ds f -> plain d = true -> FI f' -> f_syms f' = f_syms f -> f_rules f' = f_rules f -> f_opt f' = f_opt f -> f_prec f' = f_prec f ->
  f_wild f' = f_wild f -> f_start f' = f_start f -> f_default_type f' = default_type_of (ds ++ [d]) -> f_extra_token f' = extra_token_of (ds ++ [d]) -> DI (ds ++ [d]) f'.
Proof.
  intros D Hd F' Es Er Eo Ep Ew Est H1 H2. apply (DI_frame ds d f f' D); auto.
  - eapply AI_ext; [eapply AI_syms; [apply (di_ai _ _ D)|auto|auto|auto]|..]; intros n _; rewrite ?assoc_of_snoc, ?type_of_snoc, ?fallback_of_snoc, ?class_snoc; destruct d; try discriminate Hd; cbn [class_line]; rewrite ?snoc_same; reflexivity.
  - now apply grow_syms.
  - rewrite Ep, lines_snoc, (di_prec _ _ D). destruct d; try discriminate Hd; reflexivity.
  - exists []. rewrite app_nil_r. split; auto. destruct d; try discriminate Hd; constructor.
  - left. split; auto. rewrite wildcard_of_snoc. destruct d; try discriminate Hd; apply snoc_same.
  - left. split; auto. rewrite start_line_snoc. destruct d; try discriminate Hd; apply snoc_same.
Qed.

Ltac keep_opt D := try (cbn; rewrite ?(di_dt _ _ D), ?(di_et _ _ D), ?default_type_of_snoc, ?extra_token_of_snoc; symmetry; apply snoc_same).
Ltac keep_wild := left; split; [reflexivity|rewrite ?wildcard_of_snoc, ?start_line_snoc; apply snoc_same].
Ltac keep_rules := exists []; rewrite app_nil_r; split; [reflexivity|constructor].

Lemma DI_type fuel ds f na id t f' : DI ds f -> parse_one_decl fuel f (DType na id t) = GOk f' -> DI (ds ++ [DType na id t]) f'.
Proof.
  intros D H. pose proof (di_ai _ _ D) as A. pose proof (ai_fi _ _ _ _ _ A) as F. pose proof (parse_one_decl_FI _ _ _ _ F H) as F'. cbn [parse_one_decl] in H.
  apply gbind_ok in H as (k & Hk & H). apply gbind_ok in H as ([s f1] & Hn & H).
  assert (Hfit : fits_kind k id /\ k <> NMulti).
  { destruct (is_terminal_ident id) eqn:U; [injection Hk as <-; split; [exact U|discriminate]|]. destruct (is_nonterminal_ident id) eqn:L; [|discriminate].
    destruct (0 <? na); [discriminate|]. injection Hk as <-. split; [exact L|discriminate]. }
  destruct Hfit as [Hfit Hk']. destruct (AI_new _ _ _ _ f id k s f1 A Hfit (or_introl Hk') Hn) as (A1 & G1 & N1 & (l & ->) & _).
  destruct (opt_is_some _) eqn:Eo; [discriminate|]. injection H as <-. set (f1 := set_syms f l) in *. set (f0 := fun y => sym_set_attrs na (sym_set_type t y)) in *.
  pose proof N1 as N1'. apply name_sym in N1' as (y & Hy & Ey). rewrite (get_sym_nth _ _ _ Hy) in Eo. apply none_if_some in Eo.
  assert (Hne : id <> "") by (intros ->; destruct k; simpl in Hfit; try discriminate; contradiction).
  assert (G : grow f (set_syms f1 (upd (f_syms f1) s f0))) by (eapply grow_trans; [exact G1|now apply grow_upd]).
  apply (DI_frame ds _ f); auto; keep_opt D; try keep_wild; try keep_rules.
  - destruct (ai_sym _ _ _ _ _ A1 _ _ Hy) as (P1 & P2 & P3 & P4); [congruence|]. rewrite Ey in *.
    assert (A2 : AI (assoc_of ds) (fup (type_of ds) id t) (fallback_of ds) (class_of ds) (set_syms f1 (upd (f_syms f1) s f0))).
    { refine (AI_upd _ _ _ _ _ _ _ _ f1 s _ y A1 Hy _ F' _ _ _ _).
      - reflexivity.
      - rewrite Ey. intros _ n Hn'. splits; auto. now apply fup_other.
      - congruence.
      - rewrite Ey. intros _. rewrite fup_same. splits; auto.
      - congruence. }
    eapply AI_ext; [exact A2|..]; intros n _; rewrite ?assoc_of_snoc, ?type_of_snoc, ?fallback_of_snoc, ?class_snoc; cbn [class_line]; rewrite ?snoc_same; auto.
    unfold fup. destruct (String.eqb_spec n id) as [->|Hn']; [|destruct (type_of ds n), t; auto]. rewrite <- P2, Eo. now destruct t.
  - rewrite lines_snoc. apply D.
Qed.

Lemma DI_assoc fuel ds f a ids f' : DI ds f -> parse_one_decl fuel f (DAssoc a ids) = GOk f' -> DI (ds ++ [DAssoc a ids]) f'.
Proof.
  intros D H. pose proof (di_ai _ _ D) as A. pose proof (ai_fi _ _ _ _ _ A) as F. cbn [parse_one_decl] in H.
  set (f0 := set_precno f (S (f_prec f))) in *. assert (F0 : FI f0) by (fi_same F).
  assert (A0 : AI (assoc_of ds) (type_of ds) (fallback_of ds) (class_of ds) f0) by (eapply AI_syms; [exact A|reflexivity|reflexivity|exact F0]).
  destruct (AI_assoc _ _ _ a ids _ f0 f' A0 H) as (A1 & G1 & l & ->).
  apply (DI_frame ds _ f); auto; keep_opt D; try keep_wild; try keep_rules.
  - eapply AI_ext; [exact A1|..]; intros n _; rewrite ?assoc_of_snoc, ?type_of_snoc, ?fallback_of_snoc, ?class_snoc; cbn [class_line]; rewrite ?snoc_same; auto.
    cbn [f0 f_prec set_precno]. now rewrite (di_prec _ _ D).
  - rewrite lines_snoc. cbn. now rewrite (di_prec _ _ D).
Qed.

Lemma DI_start fuel ds f id f' : DI ds f -> parse_one_decl fuel f (DStartSymbol id) = GOk f' -> DI (ds ++ [DStartSymbol id]) f'.
Proof.
  intros D H. pose proof (di_ai _ _ D) as A. pose proof (ai_fi _ _ _ _ _ A) as F. pose proof (parse_one_decl_FI _ _ _ _ F H) as F'. cbn [parse_one_decl] in H.
  destruct (opt_is_some _) eqn:Eo; [discriminate|]. apply none_if_some in Eo. destruct (is_nonterminal_ident id) eqn:L; [|discriminate]. apply gbind_ok in H as ([s f1] & Hn & H).
  destruct (AI_new _ _ _ _ f id NNonTerm s f1 A L (or_introl nonterm_multi) Hn) as (A1 & G1 & N1 & (l & ->) & _). injection H as <-.
  apply (DI_frame ds _ f); auto; keep_opt D; try keep_rules.
  - eapply AI_ext; [eapply AI_syms; [exact A1|reflexivity|reflexivity|exact F']|..]; intros n _; rewrite ?assoc_of_snoc, ?type_of_snoc, ?fallback_of_snoc, ?class_snoc; cbn [class_line]; rewrite ?snoc_same; auto.
  - rewrite lines_snoc. apply D.
  - keep_wild.
  - right. rewrite start_line_snoc. pose proof (di_start _ _ D) as DS. rewrite Eo in DS. destruct (start_line ds); [contradiction|]. exact N1.
Qed.

Lemma DI_wild fuel ds f id f' : DI ds f -> parse_one_decl fuel f (DWildcard id) = GOk f' -> DI (ds ++ [DWildcard id]) f'.
Proof.
  intros D H. pose proof (di_ai _ _ D) as A. pose proof (ai_fi _ _ _ _ _ A) as F. pose proof (parse_one_decl_FI _ _ _ _ F H) as F'. cbn [parse_one_decl] in H.
  destruct (opt_is_some _) eqn:Eo; [discriminate|]. apply none_if_some in Eo. destruct (is_terminal_ident id) eqn:U; [|discriminate]. apply gbind_ok in H as ([s f1] & Hn & H).
  destruct (AI_term _ _ _ _ f id s f1 A U Hn) as (A1 & G1 & N1 & l & ->). injection H as <-.
  apply (DI_frame ds _ f); auto; keep_opt D; try keep_rules.
  - eapply AI_ext; [eapply AI_syms; [exact A1|reflexivity|reflexivity|exact F']|..]; intros n _; rewrite ?assoc_of_snoc, ?type_of_snoc, ?fallback_of_snoc, ?class_snoc; cbn [class_line]; rewrite ?snoc_same; auto.
  - rewrite lines_snoc. apply D.
  - right. rewrite wildcard_of_snoc. pose proof (di_wild _ _ D) as DS. rewrite Eo in DS. destruct (wildcard_of ds); [contradiction|]. exact N1.
  - keep_wild.
Qed.

Lemma DI_fallback fuel ds f fb ids f' : DI ds f -> parse_one_decl fuel f (DFallback fb ids) = GOk f' -> DI (ds ++ [DFallback fb ids]) f'.
Proof.
  intros D H. pose proof (di_ai _ _ D) as A. cbn [parse_one_decl] in H.
  apply gbind_ok in H as ([syms f1] & Hg & H). destruct (AI_terms _ _ _ _ _ _ _ _ _ A Hg) as (A1 & G1 & T1 & U1 & l & ->).
  destruct (is_terminal_ident fb) eqn:U; [|discriminate]. apply gbind_ok in H as ([fbs f2] & Hn & H).
  destruct (AI_term _ _ _ _ _ fb fbs f2 A1 U Hn) as (A2 & G2 & N2 & l2 & ->). apply gbind_ok in H as (_ & _ & H).
  assert (T2 : Forall2 (name_at (set_syms (set_syms f l) l2)) syms ids) by (eapply f2_impl; [|exact T1]; intros a b Hab; exact (ext_nth _ _ _ _ (proj1 G2) Hab)).
  destruct (AI_fallback _ _ _ fb fbs syms ids _ _ f' A2 T2 U1 N2 U H) as (A3 & G3 & l3 & hf & ->).
  apply (DI_frame ds _ f); auto; keep_opt D; try keep_wild; try keep_rules.
  - eapply AI_ext; [exact A3|..]; intros n _; rewrite ?assoc_of_snoc, ?type_of_snoc, ?fallback_of_snoc, ?class_snoc; cbn [class_line]; rewrite ?snoc_same; auto.
  - eapply grow_trans; [exact G1|]. eapply grow_trans; eauto.
  - rewrite lines_snoc. apply D.
Qed.

Lemma DI_class fuel ds f tk ids f' : DI ds f -> parse_one_decl fuel f (DTokenClass tk ids) = GOk f' -> DI (ds ++ [DTokenClass tk ids]) f'.
Proof.
  intros D H. pose proof (di_ai _ _ D) as A. cbn [parse_one_decl] in H.
  destruct (is_terminal_ident tk) eqn:U; [|discriminate]. apply gbind_ok in H as ([c f1] & Hn & H).
  destruct (AI_class _ _ _ _ f tk c f1 A U Hn) as (A1 & G1 & N1 & (l & ->) & _).
  destruct (AI_classes _ _ _ tk c ids _ _ f' _ A1 N1 U (fup_same _ _ _) H) as (A2 & G2 & l2 & ->).
  apply (DI_frame ds _ f); auto; keep_opt D; try keep_wild; try keep_rules.
  - eapply AI_ext; [exact A2|..]; intros n _; rewrite ?assoc_of_snoc, ?type_of_snoc, ?fallback_of_snoc, ?class_snoc; cbn [class_line]; rewrite ?snoc_same; auto.
    unfold fup. destruct (String.eqb_spec n tk) as [->|]; auto.
  - eapply grow_trans; eauto.
  - rewrite lines_snoc. apply D.
Qed.

Lemma AI_rhs pf tf ff cf es : forall done r f r' f', AI pf tf ff cf f -> Forall2 (elem_of f) done r ->
  gfold (fun '(r, f) e => '(x, f') <-! rhs_elem_sym f e ; GOk (r ++ [x], f')) es (r, f) = GOk (r', f') ->
  AI pf tf ff cf f' /\ grow f f' /\ Forall2 (elem_of f') (done ++ es) r' /\ exists l k, f' = set_opt (set_syms f l) (f_opt f ++ k).
Proof.
  induction es as [|e es IH]; intros done r f r' f' A Hd H; cbn [gfold] in H.
  - injection H as -> ->. rewrite app_nil_r. splits; auto; [apply grow_refl|]. exists (f_syms f'), []. rewrite app_nil_r. now destruct f'.
  - apply gbind_ok in H as ([r1 f1] & H1 & H). apply gbind_ok in H1 as ([x f2] & H2 & H1). injection H1 as <- <-.
    destruct (AI_rhs_elem _ _ _ _ _ _ _ _ A H2) as (A1 & G1 & E1 & l & k & ->).
    destruct (IH (done ++ [e]) (r ++ [x]) _ r' f' A1) as (A2 & G2 & E2 & l2 & k2 & ->); auto.
    + apply Forall2_app; auto. eapply f2_impl; [|exact Hd]. intros. eapply elem_grow; eauto.
    + rewrite <- app_assoc in E2. splits; auto; [eapply grow_trans; eauto|]. exists l2, (k ++ k2). cbn. now rewrite app_assoc.
Qed.

Lemma DI_rule fuel ds f lhs rhs c p f' : DI ds f -> parse_one_decl fuel f (DRule lhs rhs c p) = GOk f' -> DI (ds ++ [DRule lhs rhs c p]) f'.
Proof.
  intros D H. pose proof (di_ai _ _ D) as A. pose proof (ai_fi _ _ _ _ _ A) as F. pose proof (parse_one_decl_FI _ _ _ _ F H) as F'. cbn [parse_one_decl] in H.
  destruct (is_nonterminal_ident lhs) eqn:L; [|discriminate]. apply gbind_ok in H as ([l f1] & Hn & H).
  destruct (AI_new _ _ _ _ f lhs NNonTerm l f1 A L (or_introl nonterm_multi) Hn) as (A1 & G1 & N1 & (l1 & ->) & _). apply gbind_ok in H as ([r f2] & Hg & H).
  destruct (AI_rhs _ _ _ _ rhs [] [] _ r f2 A1 (Forall2_nil _) Hg) as (A2 & G2 & E2 & l2 & k2 & ->). cbn [app] in E2. apply gbind_ok in H as ([ps f3] & Hp & H).
  set (f2 := set_opt (set_syms (set_syms f l1) l2) (f_opt (set_syms f l1) ++ k2)) in *.
  assert (HP : AI (assoc_of ds) (type_of ds) (fallback_of ds) (class_of ds) f3 /\ grow f2 f3 /\ opt_name f3 ps p /\ exists l3, f3 = set_syms f2 l3).
  { destruct p as [id|]; [|injection Hp as <- <-; splits; auto; [apply grow_refl|exact I|exists (f_syms f2); reflexivity]]. destruct (is_terminal_ident id) eqn:U; [|discriminate].
    apply gbind_ok in Hp as ([s f4] & Hn4 & Hp). injection Hp as <- <-. destruct (AI_term _ _ _ _ _ _ _ _ A2 U Hn4) as (A4 & G4 & N4 & l4 & ->). splits; auto. eauto. }
  destruct HP as (A3 & G3 & P3 & l3 & ->). unfold create_rule in H. destruct (sy_kind (get_sym _ l)); try discriminate. injection H as <-.
  set (f3 := set_syms f2 l3) in *. set (ru := mkRule l r _ ps None) in *.
  assert (G4 : grow f3 (set_rules f3 (f_rules f3 ++ [ru]))) by now apply grow_syms.
  apply (DI_frame ds _ f); auto; keep_opt D; try keep_wild.
  - eapply AI_ext; [eapply AI_syms; [exact A3|reflexivity|reflexivity|exact F']|..]; intros n _; rewrite ?assoc_of_snoc, ?type_of_snoc, ?fallback_of_snoc, ?class_snoc; cbn [class_line]; rewrite ?snoc_same; auto.
  - eapply grow_trans; [exact G1|]. eapply grow_trans; [exact G2|]. eapply grow_trans; eauto.
  - rewrite lines_snoc. apply D.
  - exists [ru]. split; [reflexivity|]. constructor; [|constructor]. eapply rule_grow; [exact G4|]. unfold rule_of. cbn. splits; auto.
    + eapply ext_nth; [apply G3|]. eapply ext_nth; [apply G2|exact N1].
    + eapply f2_impl; [|exact E2]. intros a b Hab. exact (elem_grow f2 f3 a b G3 Hab).
Qed.

Theorem DI_step fuel ds f d f' : DI ds f -> parse_one_decl fuel f d = GOk f' -> DI (ds ++ [d]) f'.
Proof.
  intros D H. pose proof (parse_one_decl_FI _ _ _ _ (ai_fi _ _ _ _ _ (di_ai _ _ D)) H) as F'.
  destruct d; try (apply (DI_type fuel ds f); assumption); try (apply (DI_assoc fuel ds f); assumption); try (apply (DI_start fuel ds f); assumption);
    try (apply (DI_fallback fuel ds f); assumption); try (apply (DI_wild fuel ds f); assumption); try (apply (DI_class fuel ds f); assumption); try (apply (DI_rule fuel ds f); assumption);
    cbn [parse_one_decl] in H; try (match type of H with (if opt_is_some ?o then _ else _) = _ => destruct (opt_is_some o) eqn:Eo; [discriminate|]; apply none_if_some in Eo end);
    injection H as <-; apply (DI_plain ds _ f _ D); try reflexivity; try exact F'; keep_opt D.
  - cbn. rewrite default_type_of_snoc, <- (di_dt _ _ D), Eo. reflexivity.
  - cbn. rewrite extra_token_of_snoc, <- (di_et _ _ D), Eo. reflexivity.
Qed.

Theorem decls_DI fuel ds f : gfold (parse_one_decl fuel) ds fe_init = GOk f -> DI ds f.
Proof.
  enough (HG : forall ds done f0, DI done f0 -> gfold (parse_one_decl fuel) ds f0 = GOk f -> DI (done ++ ds) f) by (intros H; exact (HG ds [] fe_init init_DI H)).
  clear ds. induction ds as [|d ds IH]; intros done f0 D H; cbn [gfold] in H; [injection H as <-; now rewrite app_nil_r|].
  apply gbind_ok in H as (f1 & H1 & H). apply (DI_step _ _ _ _ _ D) in H1. apply (IH _ _ H1) in H. now rewrite <- app_assoc in H.
Qed.

(** ** Anonymous symbols come from compounds in rules *)
Definition anon_same (f f' : fe) : Prop := forall i, name_at f' i "" -> name_at f i "".
Lemma anon_refl f : anon_same f f. Proof. intros i H. exact H. Qed.
Lemma anon_trans f1 f2 f3 : anon_same f1 f2 -> anon_same f2 f3 -> anon_same f1 f3.
Proof. intros H1 H2 i H. auto. Qed.
Lemma anon_names f f' : names f' = names f -> anon_same f f'.
Proof. intros E i. unfold name_at. now rewrite E. Qed.
Lemma anon_upd f i f0 : (forall s, sy_name (f0 s) = sy_name s) -> anon_same f (set_syms f (upd (f_syms f) i f0)).
Proof. intros H. apply anon_names. now apply names_upd. Qed.
Lemma anon_add f s i : name_at (set_syms f (f_syms f ++ [s])) i "" -> name_at f i "" \/ sy_name s = "" /\ i = List.length (f_syms f).
Proof.
  unfold name_at, names. cbn. rewrite map_app. intros H. destruct (Nat.lt_ge_cases i (List.length (map sy_name (f_syms f)))) as [L|L].
  - rewrite nth_error_app1 in H by auto. auto.
  - rewrite nth_error_app2 in H by auto. rewrite map_length in *. destruct (i - List.length (f_syms f)) as [|k] eqn:E; [|destruct k; discriminate]. injection H as H. right. split; auto. lia.
Qed.
Lemma symbol_new_anon f name t i f' : symbol_new f name t = GOk (i, f') -> forall j, name_at f' j "" -> name_at f j "" \/ name = "" /\ j = i.
Proof.
  unfold symbol_new. destruct (if (name =? "")%string then None else _) as [k|]; intros H j Hj.
  - left. assert (A : anon_same f (set_syms f (upd (f_syms f) k sym_incr_use))) by now apply anon_upd. apply A.
    destruct t; try (injection H as <- <-; exact Hj). destruct (sy_kind (get_sym f k)); try discriminate; injection H as <- <-; auto.
    revert j Hj. now apply (anon_upd (set_syms f (upd (f_syms f) k sym_incr_use))).
  - injection H as <- <-. apply anon_add in Hj as [Hj|[H1 H2]]; auto.
Qed.
Lemma named_new_anon f name t i f' : symbol_new f name t = GOk (i, f') -> name <> "" -> anon_same f f'.
Proof. intros H Hn j Hj. destruct (symbol_new_anon _ _ _ _ _ H j Hj) as [|[E _]]; auto. contradiction. Qed.
Lemma upper_ne s : is_terminal_ident s = true -> s <> "". Proof. intros H ->. discriminate. Qed.
Lemma lower_ne s : is_nonterminal_ident s = true -> s <> "". Proof. intros H ->. discriminate. Qed.

Lemma terms_anon e ids ss f ss' f' :
  gfold (fun '(ss, f) tok => if is_terminal_ident tok then '(s, f') <-! symbol_new f tok NTerm ; GOk (ss ++ [s], f') else GErr e) ids (ss, f) = GOk (ss', f') -> anon_same f f'.
Proof.
  intros H. apply (gfold_rel (fun a b => anon_same (snd a) (snd b))) in H; auto.
  - intros. apply anon_refl. - intros. eapply anon_trans; eauto.
  - intros [s1 f1] tok [s2 f2] _ H1. destruct (is_terminal_ident tok) eqn:U; [|discriminate]. apply gbind_ok in H1 as ([s f3] & H3 & H1). injection H1 as <- <-.
    eapply named_new_anon; eauto. now apply upper_ne.
Qed.
Lemma rhs_elem_anon f e x f' : rhs_elem_sym f e = GOk (x, f') -> forall i, name_at f' i "" -> name_at f i "" \/ i = fst x.
Proof.
  destruct e as [[toks o] alias]. unfold rhs_elem_sym. destruct toks as [|tok [|tok2 toks]]; [discriminate| |]; intros H i Hi.
  - left. apply gbind_ok in H as (t & Ht & H).
    assert (Hne : tok <> "") by (intros ->; discriminate).
    destruct o; apply gbind_ok in H as ([s f1] & H1 & H); pose proof (named_new_anon _ _ _ _ _ H1 Hne) as A1.
    + destruct (find _ _) as [[y sl]|]; [injection H as <- <-; auto|]. apply gbind_ok in H as ([sl f2] & H2 & H). injection H as <- <-.
      apply A1. apply (named_new_anon _ _ _ _ _ H2); [discriminate|exact Hi].
    + injection H as <- <-. auto.
  - apply gbind_ok in H as ([mt f1] & H1 & H). pose proof (symbol_new_anon _ _ _ _ _ H1) as A1. apply gbind_ok in H as ([ss f2] & H2 & H). apply terms_anon in H2.
    destruct (sy_kind (get_sym f2 mt)); try discriminate. injection H as <- <-.
    apply (anon_upd f2) in Hi; [|reflexivity]. apply H2, A1 in Hi as [Hi|[_ Hi]]; auto.
Qed.

Definition anon_used (f : fe) : Prop := forall i, name_at f i "" -> exists ru p, In ru (f_rules f) /\ In p (r_rhs ru) /\ fst p = i.
Lemma anon_used_same f f' : anon_same f f' -> f_rules f' = f_rules f -> anon_used f -> anon_used f'.
Proof. intros H E U i Hi. apply H, U in Hi as (ru & p & H1 & H2). exists ru, p. now rewrite E. Qed.

Lemma fb_fold_names fbs syms : forall f f', 
  gfold (fun f s => if opt_is_some (sy_fb (get_sym f s)) then GErr EFallbackDup
          else GOk (set_has_fb (set_syms f (upd (f_syms f) s (sym_set_fb (Some fbs)))) true)) syms f = GOk f' -> names f' = names f /\ f_rules f' = f_rules f.
Proof.
  induction syms as [|s syms IH]; intros f f' H; cbn [gfold] in H; [injection H as <-; auto|].
  apply gbind_ok in H as (f4 & H4 & H). destruct (opt_is_some _); [discriminate|]. injection H4 as <-. apply IH in H as [-> ->]. split; auto. now apply names_upd.
Qed.

Lemma sym_rules f name t i f' : symbol_new f name t = GOk (i, f') -> f_rules f' = f_rules f.
Proof.
  unfold symbol_new. destruct (if (name =? "")%string then None else _) as [k|]; intros H.
  - destruct t; try (injection H as <- <-; reflexivity). destruct (sy_kind (get_sym f k)); try discriminate; injection H as <- <-; reflexivity.
  - injection H as <- <-. reflexivity.
Qed.
Lemma terms_rules e ids ss f ss' f' :
  gfold (fun '(ss, f) tok => if is_terminal_ident tok then '(s, f') <-! symbol_new f tok NTerm ; GOk (ss ++ [s], f') else GErr e) ids (ss, f) = GOk (ss', f') -> f_rules f' = f_rules f.
Proof.
  intros H. apply (gfold_rel (fun a b => f_rules (snd b) = f_rules (snd a))) in H; auto.
  - intros. congruence.
  - intros [s1 f1] tok [s2 f2] _ H1. destruct (is_terminal_ident tok) eqn:U; [|discriminate]. apply gbind_ok in H1 as ([s f3] & H3 & H1). injection H1 as <- <-. eapply sym_rules; eauto.
Qed.

Lemma parse_one_decl_anon fuel f d f' : anon_used f -> parse_one_decl fuel f d = GOk f' -> anon_used f'.
Proof.
  intros A H. destruct d; cbn [parse_one_decl] in H;
    try (injection H as <-; exact A);
    try (match type of H with (if ?b then _ else _) = _ => destruct b; [discriminate|] end; injection H as <-; exact A; fail).
  - apply gbind_ok in H as (k & Hk & H). apply gbind_ok in H as ([s f1] & Hn & H). destruct (opt_is_some _); [discriminate|]. injection H as <-.
    assert (Hne : id <> "") by (intros ->; discriminate). apply (anon_used_same f); auto; [|exact (sym_rules _ _ _ _ _ Hn)].
    eapply anon_trans; [exact (named_new_anon _ _ _ _ _ Hn Hne)|]. now apply anon_upd.
  - assert (A0 : anon_used (set_precno f (S (f_prec f)))) by exact A. revert H. apply gfold_inv; auto.
    intros f1 tok f2 _ F1 H1. destruct (is_terminal_ident tok) eqn:U; [|discriminate]. apply gbind_ok in H1 as ([s f3] & Hn & H1).
    destruct (opt_is_some _); [discriminate|]. injection H1 as <-. apply (anon_used_same f1); auto; [|exact (sym_rules _ _ _ _ _ Hn)].
    eapply anon_trans; [exact (named_new_anon _ _ _ _ _ Hn (upper_ne _ U))|]. now apply anon_upd.
  - destruct (opt_is_some _); [discriminate|]. destruct (is_nonterminal_ident id) eqn:L; [|discriminate]. apply gbind_ok in H as ([s f1] & Hn & H).
    injection H as <-. apply (anon_used_same f); auto; [|exact (sym_rules _ _ _ _ _ Hn)]. exact (named_new_anon _ _ _ _ _ Hn (lower_ne _ L)).
  - apply gbind_ok in H as ([syms f1] & Hg & H). destruct (is_terminal_ident fb) eqn:U; [|discriminate]. apply gbind_ok in H as ([fbx f2] & Hn & H). apply gbind_ok in H as ([] & Hc & H).
    apply fb_fold_names in H as [E1 E2]. apply (anon_used_same f); auto; [|rewrite E2, (sym_rules _ _ _ _ _ Hn); exact (terms_rules _ _ _ _ _ _ Hg)].
    eapply anon_trans; [exact (terms_anon _ _ _ _ _ _ Hg)|]. eapply anon_trans; [exact (named_new_anon _ _ _ _ _ Hn (upper_ne _ U))|]. now apply anon_names.
  - destruct (opt_is_some _); [discriminate|]. destruct (is_terminal_ident id) eqn:U; [|discriminate]. apply gbind_ok in H as ([s f1] & Hn & H).
    injection H as <-. apply (anon_used_same f); auto; [|exact (sym_rules _ _ _ _ _ Hn)]. exact (named_new_anon _ _ _ _ _ Hn (upper_ne _ U)).
  - destruct (is_terminal_ident tk) eqn:U; [|discriminate]. apply gbind_ok in H as ([c f1] & Hn & H).
    assert (A1 : anon_used f1) by (apply (anon_used_same f); auto; [exact (named_new_anon _ _ _ _ _ Hn (upper_ne _ U))|exact (sym_rules _ _ _ _ _ Hn)]).
    revert H. apply gfold_inv; auto. intros f2 id f3 _ F2 H2. destruct (is_terminal_ident id) eqn:Ui; [|discriminate]. apply gbind_ok in H2 as ([s f4] & Hn4 & H2).
    destruct (sy_kind (get_sym f4 c)) as [| |m] eqn:Ek; try discriminate. injection H2 as <-. apply (anon_used_same f2); auto; [|exact (sym_rules _ _ _ _ _ Hn4)].
    eapply anon_trans; [exact (named_new_anon _ _ _ _ _ Hn4 (upper_ne _ Ui))|]. now apply anon_upd.
  - destruct (is_nonterminal_ident lhs) eqn:L; [|discriminate]. apply gbind_ok in H as ([l f1] & Hn & H).
    pose proof (named_new_anon _ _ _ _ _ Hn (lower_ne _ L)) as A1. pose proof (sym_rules _ _ _ _ _ Hn) as R1.
    apply gbind_ok in H as ([r f2] & Hg & H). apply gbind_ok in H as ([ps f3] & Hp & H).
    assert (HR : forall es r0 f0 r' f', gfold (fun '(r, f) e => '(x, f') <-! rhs_elem_sym f e ; GOk (r ++ [x], f')) es (r0, f0) = GOk (r', f') ->
       (exists k, r' = r0 ++ k) /\ forall i, name_at f' i "" -> name_at f0 i "" \/ exists p, In p r' /\ fst p = i).
    { clear. induction es as [|e es IH]; intros r0 f0 r' f' H; cbn [gfold] in H.
      - injection H as -> ->. split; auto. exists []. now rewrite app_nil_r.
      - apply gbind_ok in H as ([r1 f1] & H1 & H). apply gbind_ok in H1 as ([x f2] & H2 & H1). injection H1 as <- <-. destruct (IH _ _ _ _ H) as [(k & ->) B]. split.
        + exists (x :: k). now rewrite <- app_assoc.
        + intros i Hi. apply B in Hi as [Hi|Hi]; auto. apply (rhs_elem_anon _ _ _ _ H2) in Hi as [Hi| ->]; auto. right. exists x. split; auto. rewrite !in_app_iff. left. right. now left. }
    assert (HRr : f_rules f2 = f_rules f1).
    { clear -Hg. apply (gfold_rel (fun a b => f_rules (snd b) = f_rules (snd a))) in Hg; auto.
      - intros. congruence.
      - intros [s1 g1] e [s2 g2] _ H1. apply gbind_ok in H1 as ([x g3] & H3 & H1). injection H1 as <- <-. cbn. destruct e as [[toks o] al]. unfold rhs_elem_sym in H3. destruct toks as [|tok [|tok2 toks]]; [discriminate| |].
        + apply gbind_ok in H3 as (t & _ & H3). destruct o; apply gbind_ok in H3 as ([s h1] & H1 & H3); apply sym_rules in H1.
          * destruct (find _ _) as [[y sl]|]; [injection H3 as <- <-; auto|]. apply gbind_ok in H3 as ([sl h2] & H2 & H3). injection H3 as <- <-. apply sym_rules in H2. cbn. congruence.
          * injection H3 as <- <-. auto.
        + apply gbind_ok in H3 as ([mt h1] & H1 & H3). apply sym_rules in H1. apply gbind_ok in H3 as ([ss h2] & H2 & H3). apply terms_rules in H2. destruct (sy_kind (get_sym h2 mt)); try discriminate. injection H3 as <- <-. cbn. congruence. }
    assert (A3 : anon_same f2 f3 /\ f_rules f3 = f_rules f2).
    { destruct prec as [id|]; [|injection Hp as <- <-; split; auto; apply anon_refl]. destruct (is_terminal_ident id) eqn:U; [|discriminate].
      apply gbind_ok in Hp as ([s f4] & Hn4 & Hp). injection Hp as <- <-. split; [exact (named_new_anon _ _ _ _ _ Hn4 (upper_ne _ U))|exact (sym_rules _ _ _ _ _ Hn4)]. }
    destruct A3 as [A3 R3]. unfold create_rule in H. destruct (sy_kind (get_sym f3 l)); try discriminate. injection H as <-.
    intros i Hi. cbn [f_rules set_rules]. assert (Hi3 : name_at f3 i "") by exact Hi. apply A3 in Hi3. destruct (HR _ _ _ _ _ Hg) as [_ B]. apply B in Hi3 as [Hi1|(p & Hp1 & Hp2)].
    + apply A1, A in Hi1 as (ru & p & H1 & H2 & H3). exists ru, p. splits; auto. apply in_app_iff. left. congruence.
    + eexists. exists p. split; [apply in_app_iff; right; left; reflexivity|]. auto.
Qed.

Theorem decls_anon fuel ds f : gfold (parse_one_decl fuel) ds fe_init = GOk f -> anon_used f.
Proof.
  apply gfold_inv; [intros; eapply parse_one_decl_anon; eauto|]. intros [|[|i]] H; try discriminate. destruct i; discriminate.
Qed.

(** Every optional symbol stands in some rule. *)
Definition opt_used (f : fe) : Prop := forall r l, In (r, l) (f_opt f) -> exists ru p, In ru (f_rules f) /\ In p (r_rhs ru) /\ fst p = l.
Lemma opt_used_same f f' : f_opt f' = f_opt f -> f_rules f' = f_rules f -> opt_used f -> opt_used f'.
Proof. intros E1 E2 U r l. rewrite E1, E2. apply U. Qed.
Lemma sym_opt f name t i f' : symbol_new f name t = GOk (i, f') -> f_opt f' = f_opt f.
Proof.
  unfold symbol_new. destruct (if (name =? "")%string then None else _) as [k|]; intros H.
  - destruct t; try (injection H as <- <-; reflexivity). destruct (sy_kind (get_sym f k)); try discriminate; injection H as <- <-; reflexivity.
  - injection H as <- <-. reflexivity.
Qed.
Lemma terms_opt e ids ss f ss' f' :
  gfold (fun '(ss, f) tok => if is_terminal_ident tok then '(s, f') <-! symbol_new f tok NTerm ; GOk (ss ++ [s], f') else GErr e) ids (ss, f) = GOk (ss', f') -> f_opt f' = f_opt f.
Proof.
  intros H. apply (gfold_rel (fun a b => f_opt (snd b) = f_opt (snd a))) in H; auto.
  - intros. congruence.
  - intros [s1 f1] tok [s2 f2] _ H1. destruct (is_terminal_ident tok) eqn:U; [|discriminate]. apply gbind_ok in H1 as ([s f3] & H3 & H1). injection H1 as <- <-. eapply sym_opt; eauto.
Qed.
Lemma fb_fold_opt fbs syms : forall f f', 
  gfold (fun f s => if opt_is_some (sy_fb (get_sym f s)) then GErr EFallbackDup
          else GOk (set_has_fb (set_syms f (upd (f_syms f) s (sym_set_fb (Some fbs)))) true)) syms f = GOk f' -> f_opt f' = f_opt f.
Proof.
  induction syms as [|s syms IH]; intros f f' H; cbn [gfold] in H; [injection H as <-; auto|].
  apply gbind_ok in H as (f4 & H4 & H). destruct (opt_is_some _); [discriminate|]. injection H4 as <-. now apply IH in H.
Qed.
Lemma rhs_elem_opt f e p f' : rhs_elem_sym f e = GOk (p, f') -> f_rules f' = f_rules f /\ forall r l, In (r, l) (f_opt f') -> In (r, l) (f_opt f) \/ l = fst p.
Proof.
  destruct e as [[toks o] al]. unfold rhs_elem_sym. intros H3. destruct toks as [|tok [|tok2 toks]]; [discriminate| |].
  - apply gbind_ok in H3 as (t & _ & H3). destruct o; apply gbind_ok in H3 as ([s h1] & H1 & H3); pose proof (sym_opt _ _ _ _ _ H1) as O1; apply sym_rules in H1.
    + destruct (find _ _) as [[y sl]|]; [injection H3 as <- <-; split; auto; intros r l; rewrite O1; auto|]. apply gbind_ok in H3 as ([sl h2] & H2 & H3). injection H3 as <- <-.
      pose proof (sym_opt _ _ _ _ _ H2) as O2. apply sym_rules in H2. cbn. split; [congruence|]. intros r l Hin. apply in_app_iff in Hin as [Hin|[E|[]]]; [left; congruence|]. injection E as <- <-. auto.
    + injection H3 as <- <-. split; auto. intros r l. rewrite O1; auto.
  - apply gbind_ok in H3 as ([mt h1] & H1 & H3). pose proof (sym_opt _ _ _ _ _ H1) as O1. apply sym_rules in H1. apply gbind_ok in H3 as ([ss h2] & H2 & H3).
    pose proof (terms_opt _ _ _ _ _ _ H2) as O2. apply terms_rules in H2. destruct (sy_kind (get_sym h2 mt)); try discriminate. injection H3 as <- <-. cbn. split; [congruence|]. intros r l. rewrite O2, O1. auto.
Qed.

Lemma parse_one_decl_opt fuel f d f' : opt_used f -> parse_one_decl fuel f d = GOk f' -> opt_used f'.
Proof.
  intros A H. destruct d; cbn [parse_one_decl] in H;
    try (injection H as <-; exact A);
    try (match type of H with (if ?b then _ else _) = _ => destruct b; [discriminate|] end; injection H as <-; exact A; fail).
  - apply gbind_ok in H as (k & Hk & H). apply gbind_ok in H as ([s f1] & Hn & H). destruct (opt_is_some _); [discriminate|]. injection H as <-.
    apply (opt_used_same f); auto; [exact (sym_opt _ _ _ _ _ Hn)|exact (sym_rules _ _ _ _ _ Hn)].
  - assert (A0 : opt_used (set_precno f (S (f_prec f)))) by exact A. revert H. apply gfold_inv; auto.
    intros f1 tok f2 _ F1 H1. destruct (is_terminal_ident tok) eqn:U; [|discriminate]. apply gbind_ok in H1 as ([s f3] & Hn & H1).
    destruct (opt_is_some _); [discriminate|]. injection H1 as <-. apply (opt_used_same f1); auto; [exact (sym_opt _ _ _ _ _ Hn)|exact (sym_rules _ _ _ _ _ Hn)].
  - destruct (opt_is_some _); [discriminate|]. destruct (is_nonterminal_ident id) eqn:L; [|discriminate]. apply gbind_ok in H as ([s f1] & Hn & H).
    injection H as <-. apply (opt_used_same f); auto; [exact (sym_opt _ _ _ _ _ Hn)|exact (sym_rules _ _ _ _ _ Hn)].
  - apply gbind_ok in H as ([syms f1] & Hg & H). destruct (is_terminal_ident fb) eqn:U; [|discriminate]. apply gbind_ok in H as ([fbx f2] & Hn & H). apply gbind_ok in H as ([] & Hc & H).
    pose proof (fb_fold_opt _ _ _ _ H) as O. apply fb_fold_names in H as [E1 E2]. apply (opt_used_same f); auto; [rewrite O, (sym_opt _ _ _ _ _ Hn); exact (terms_opt _ _ _ _ _ _ Hg)|rewrite E2, (sym_rules _ _ _ _ _ Hn); exact (terms_rules _ _ _ _ _ _ Hg)].
  - destruct (opt_is_some _); [discriminate|]. destruct (is_terminal_ident id) eqn:U; [|discriminate]. apply gbind_ok in H as ([s f1] & Hn & H).
    injection H as <-. apply (opt_used_same f); auto; [exact (sym_opt _ _ _ _ _ Hn)|exact (sym_rules _ _ _ _ _ Hn)].
  - destruct (is_terminal_ident tk) eqn:U; [|discriminate]. apply gbind_ok in H as ([c f1] & Hn & H).
    assert (A1 : opt_used f1) by (apply (opt_used_same f); auto; [exact (sym_opt _ _ _ _ _ Hn)|exact (sym_rules _ _ _ _ _ Hn)]).
    revert H. apply gfold_inv; auto. intros f2 id f3 _ F2 H2. destruct (is_terminal_ident id) eqn:Ui; [|discriminate]. apply gbind_ok in H2 as ([s f4] & Hn4 & H2).
    destruct (sy_kind (get_sym f4 c)) as [| |m] eqn:Ek; try discriminate. injection H2 as <-. apply (opt_used_same f2); auto; [exact (sym_opt _ _ _ _ _ Hn4)|exact (sym_rules _ _ _ _ _ Hn4)].
  - destruct (is_nonterminal_ident lhs) eqn:L; [|discriminate]. apply gbind_ok in H as ([l f1] & Hn & H).
    pose proof (sym_opt _ _ _ _ _ Hn) as O1. pose proof (sym_rules _ _ _ _ _ Hn) as R1.
    apply gbind_ok in H as ([r f2] & Hg & H). apply gbind_ok in H as ([ps f3] & Hp & H).
    assert (HR : forall es r0 f0 r' f', gfold (fun '(r, f) e => '(x, f') <-! rhs_elem_sym f e ; GOk (r ++ [x], f')) es (r0, f0) = GOk (r', f') ->
       (exists k, r' = r0 ++ k) /\ f_rules f' = f_rules f0 /\ forall y i, In (y, i) (f_opt f') -> In (y, i) (f_opt f0) \/ exists p, In p r' /\ fst p = i).
    { clear. induction es as [|e es IH]; intros r0 f0 r' f' H; cbn [gfold] in H.
      - injection H as -> ->. splits; auto. exists []. now rewrite app_nil_r.
      - apply gbind_ok in H as ([r1 f1] & H1 & H). apply gbind_ok in H1 as ([x f2] & H2 & H1). injection H1 as <- <-. destruct (IH _ _ _ _ H) as [(k & ->) [B0 B]]. destruct (rhs_elem_opt _ _ _ _ H2) as [C0 C]. splits.
        + exists (x :: k). now rewrite <- app_assoc.
        + congruence.
        + intros y i Hi. apply B in Hi as [Hi|Hi]; auto. apply C in Hi as [Hi| ->]; auto. right. exists x. split; auto. rewrite !in_app_iff. left. right. now left. }
    destruct (HR _ _ _ _ _ Hg) as [_ [HRr B]].
    assert (A3 : f_opt f3 = f_opt f2 /\ f_rules f3 = f_rules f2).
    { destruct prec as [id|]; [|injection Hp as <- <-; split; auto]. destruct (is_terminal_ident id) eqn:U; [|discriminate].
      apply gbind_ok in Hp as ([s f4] & Hn4 & Hp). injection Hp as <- <-. split; [exact (sym_opt _ _ _ _ _ Hn4)|exact (sym_rules _ _ _ _ _ Hn4)]. }
    destruct A3 as [A3 R3]. unfold create_rule in H. destruct (sy_kind (get_sym f3 l)); try discriminate. injection H as <-.
    intros y i Hi. cbn [f_rules set_rules]. cbn in Hi. rewrite A3 in Hi. apply B in Hi as [Hi1|(p & Hp1 & Hp2)].
    + rewrite O1 in Hi1. apply A in Hi1 as (ru & p & H1 & H2 & H3). exists ru, p. splits; auto. apply in_app_iff. left. congruence.
    + eexists. exists p. split; [apply in_app_iff; right; left; reflexivity|]. auto.
Qed.
Theorem decls_opt fuel ds f : gfold (parse_one_decl fuel) ds fe_init = GOk f -> opt_used f.
Proof. apply gfold_inv; [intros; eapply parse_one_decl_opt; eauto|]. intros r l []. Qed.
