(** The grammar of a successful build, symbol by symbol and rule by rule, in terms of the
    declarations. *)
From Coq Require Import Permutation.
From Verif Require Import Base Syntax BaseFacts FrontEnd First States Actions Tables Runtime Spec WfGrammar FrontFacts DeclSpec DeclFacts PipeFacts BuildFacts.
Open Scope string_scope. Open Scope nat_scope. Open Scope list_scope.

(** Symbol [i] of the grammar has name [n]. *)
Definition at_name (g : grammar) (i : nat) (n : string) : Prop := exists s, nth_error (g_syms g) i = Some s /\ sy_name s = n.
Definition gname (g : grammar) (i : nat) : string := sy_name (gsym g i).
Definition members (g : grammar) (k : kind) : option (list string) := match k with KMulti ms => Some (map (gname g) ms) | _ => None end.
Definition opt_at (g : grammar) (o : option nat) (n : option string) : Prop :=
  match o, n with None, None => True | Some i, Some m => at_name g i m | _, _ => False end.

(** [X] is the symbol of one element of a declared right-hand side; [opts] pairs the symbols
    marked '?' with their optional symbols. *)
Definition elem_sym (g : grammar) (opts : list (nat * nat)) (e : rhs_elem) (X : nat) : Prop :=
  let '(toks, o, _) := e in
  match toks with
  | [] => False
  | [tok] => (upper tok \/ lower tok) /\ if (o : bool) then exists Y, In (Y, X) opts /\ at_name g Y tok else at_name g X tok
  | _ => Forall (fun n => upper n) toks /\ at_name g X "" /\ exists ms, kind_at g X = Some (KMulti ms) /\ Forall2 (at_name g) ms toks
  end.
Definition alias_of (e : rhs_elem) : bool := let '(_, _, al) := e in opt_is_some al.

(** The rule made from a declared one *)
Record rule_made (g : grammar) (opts : list (nat * nat)) (d : drule) (ru : rule) : Prop := {
  rm_lhs : at_name g (r_lhs ru) (d_lhs d);
  rm_low : lower (d_lhs d);
  rm_rhs : Forall2 (elem_sym g opts) (d_rhs d) (map fst (r_rhs ru));
  rm_ps : opt_at g (r_precsym ru) (d_prec d);
  rm_code : match d_code d with
            | Some c => r_code ru = CUser c /\ map snd (r_rhs ru) = map alias_of (d_rhs d)
            | None => r_code ru = CAbsent /\ has_type g (r_lhs ru) = false /\ map snd (r_rhs ru) = map alias_of (d_rhs d) \/
                      r_code ru = CAuto /\ has_type g (r_lhs ru) = true /\ Forall (fun e => alias_of e = false) (d_rhs d) /\
                      map snd (r_rhs ru) = map (fun p => has_type g (fst p)) (r_rhs ru) /\
                      List.length (filter (fun p => has_type g (fst p)) (r_rhs ru)) = 1
            end;
  rm_prec : r_prec ru = match r_precsym ru with
                        | Some ps => sy_prec (gsym g ps)
                        | None => first_some (fun p => rhs_sym_prec g (fst p)) (r_rhs ru)
                        end }.

(** The two rules of an optional symbol *)
Definition opt_made (g : grammar) (p : nat * nat) : list rule :=
  [mkRule (snd p) [] COptNone None None; mkRule (snd p) [(fst p, true)] COptSome None (rhs_sym_prec g (fst p))].

Record declared (ds : list decl) (g : grammar) (opts : list (nat * nat)) : Prop := {
  de_uniq : forall i j n, at_name g i n -> at_name g j n -> n <> "" -> i = j;
  de_sym : forall i s, nth_error (g_syms g) i = Some s -> sy_name s <> "" ->
    sy_prec s = assoc_of ds (sy_name s) /\ option_map (gname g) (sy_fb s) = fallback_of ds (sy_name s) /\ members g (sy_kind s) = class_of ds (sy_name s);
  de_anon : forall i s, nth_error (g_syms g) i = Some s -> sy_name s = "" -> sy_prec s = None /\ sy_fb s = None /\ (exists ms, sy_kind s = KMulti ms) /\
    exists d e, In d (rules_in ds) /\ In e (d_rhs d) /\ elem_sym g opts e i;
  de_named : forall i s, nth_error (g_syms g) i = Some s -> sy_name s <> "" ->
    (i = 0 /\ sy_name s = "$" /\ sy_kind s = KTerm) \/
    (upper (sy_name s) /\ i <> 0 /\ sy_kind s <> KNonTerm) \/
    (lower (sy_name s) /\ sy_kind s = KNonTerm) \/
    ((exists k, sy_name s = optional_name k) /\ sy_kind s = KNonTerm) \/
    (i = g_dflt g /\ sy_name s = "{default}" /\ sy_kind s = KNonTerm);
  de_multi : forall X ms m, kind_at g X = Some (KMulti ms) -> In m ms -> upper (gname g m);
  de_fbname : forall i s f, nth_error (g_syms g) i = Some s -> sy_fb s = Some f -> upper (gname g f);
  de_dollar : at_name g 0 "$";
  de_error : at_name g (g_error g) "error";
  de_out : forall n, n <> "" -> (forall i, ~ at_name g i n) -> assoc_of ds n = None /\ fallback_of ds n = None /\ class_of ds n = None;
  de_opts : forall Y X, In (Y, X) opts -> (exists n, at_name g Y n /\ (upper n \/ lower n)) /\ exists k, at_name g X (optional_name k);
  de_opt1 : NoDup (map fst opts);
  de_opt2 : NoDup (map snd opts);
  de_opt3 : forall i k, at_name g i (optional_name k) -> In i (map snd opts);
  de_opt4 : forall Y X, In (Y, X) opts -> exists d n al, In d (rules_in ds) /\ In ([n], true, al) (d_rhs d) /\ at_name g Y n;
  de_rules : exists rs, g_rules g = rs ++ flat_map (opt_made g) opts /\ Forall2 (rule_made g opts) (rules_in ds) rs;
  de_type : forall i n, at_name g i n -> upper n \/ lower n -> sy_type (gsym g i) = raw_type ds n;
  de_type_anon : forall i, at_name g i "" -> sy_type (gsym g i) = None;
  de_special : sy_type (gsym g 0) = None /\ sy_type (gsym g (g_dflt g)) = None;
  de_type_opt : forall Y X, In (Y, X) opts -> sy_type (gsym g X) = Some (TyOption (or_unit (sy_type (gsym g Y))));
  de_dflt : f_default_type (g_fe g) = default_type_of ds;
  de_wild : opt_at g (g_wild g) (wildcard_of ds);
  de_start : exists n, start_of ds = Some n /\ at_name g (g_start g) n /\ lower n }.

Lemma f2_nil_l {S1 T1} (P : S1 -> T1 -> Prop) m : Forall2 P [] m -> m = [].
Proof. now inversion 1. Qed.
Lemma f2_cons_l {S1 T1} (P : S1 -> T1 -> Prop) a l m : Forall2 P (a :: l) m -> exists b m', m = b :: m' /\ P a b /\ Forall2 P l m'.
Proof. inversion 1; subst. eauto. Qed.
Lemma forall2_in_r {S1 T1} (P : S1 -> T1 -> Prop) l m : Forall2 P l m -> forall b, In b m -> exists a, In a l /\ P a b.
Proof. induction 1 as [|x y l m H F IH]; intros b Hb; [destruct Hb|]. destruct Hb as [->|Hb]; [exists x; simpl; auto|]. destruct (IH _ Hb) as (a & Ha & Hp). exists a. simpl; auto. Qed.
Lemma forall2_in_l {S1 T1} (P : S1 -> T1 -> Prop) l m : Forall2 P l m -> forall a, In a l -> exists b, In b m /\ P a b.
Proof. induction 1 as [|x y l m H F IH]; intros b Hb; [destruct Hb|]. destruct Hb as [->|Hb]; [exists y; simpl; auto|]. destruct (IH _ Hb) as (a & Ha & Hp). exists a. simpl; auto. Qed.
Lemma nodup_map_into {A B} (h : A -> B) l : (forall a b, In a l -> In b l -> h a = h b -> a = b) -> NoDup l -> NoDup (map h l).
Proof.
  intros H. induction 1 as [|a l Ha Hl IH]; cbn; constructor.
  - intros Hin. apply in_map_iff in Hin as (b & E & Hb). apply Ha. rewrite <- (H b a); simpl; auto.
  - apply IH. intros x y Hx Hy. apply H; simpl; auto.
Qed.

(** ** The types [prepare] sets *)
Lemma set_type_fold (up : option ty -> option ty) (order : list nat) : forall l f, NoDup (map (fun i => nth i order 0) l) ->
  let f' := fold_left (fun f i => set_syms f (upd (f_syms f) (nth i order 0) (fun s => sym_set_type (up (sy_type s)) s))) l f in
  List.length (f_syms f') = List.length (f_syms f) /\ f_default_type f' = f_default_type f /\ f_opt f' = f_opt f /\
  forall id, id < List.length (f_syms f) -> sy_type (get_sym f' id) = if existsb (Nat.eqb id) (map (fun i => nth i order 0) l) then up (sy_type (get_sym f id)) else sy_type (get_sym f id).
Proof.
  induction l as [|i l IH]; intros f ND; cbn [fold_left map] in *; [splits; auto|]. inversion ND as [|? ? Hni ND']; subst.
  destruct (IH (set_syms f (upd (f_syms f) (nth i order 0) (fun s => sym_set_type (up (sy_type s)) s))) ND') as (H1 & H2 & H3 & H4). cbn in H1, H2, H3, H4. rewrite upd_length in *. splits; auto.
  intros id Hid. rewrite H4 by auto. unfold get_sym. cbn [f_syms set_syms existsb]. destruct (Nat.eqb_spec id (nth i order 0)) as [->|Hne].
  - rewrite nth_upd_same by auto. cbn. destruct (existsb (Nat.eqb (nth i order 0)) _) eqn:E; auto. apply existsb_exists in E as (x & Hx & E). apply Nat.eqb_eq in E. subst x. contradiction.
  - rewrite nth_upd_other by auto. reflexivity.
Qed.
Lemma opt_fold opts : forall f f', optional_rules f opts = GOk f' -> NoDup (map snd opts) -> (forall r l, In (r, l) opts -> ~ In r (map snd opts) /\ l < List.length (f_syms f)) ->
  f_default_type f' = f_default_type f /\ forall id, sy_type (get_sym f' id) =
    match find (fun q => snd q =? id) opts with Some (r, _) => Some (TyOption (or_unit (sy_type (get_sym f r)))) | None => sy_type (get_sym f id) end.
Proof.
  unfold optional_rules. induction opts as [|[r l] opts IH]; intros f f' H ND HO; cbn [gfold] in H.
  - injection H as <-. auto.
  - apply gbind_ok in H as (f3 & H3 & H). apply gbind_ok in H3 as (f2 & H2 & H3). unfold create_rule in H2, H3.
    destruct (sy_kind (get_sym _ l)); try discriminate. injection H2 as <-. destruct (sy_kind (get_sym _ l)); try discriminate. injection H3 as <-.
    cbn in ND. inversion ND as [|? ? Hni ND']; subst. apply IH in H as [A1 A2]; auto.
    + split; [rewrite A1; reflexivity|]. intros id. rewrite A2. cbn [find snd]. destruct (HO r l) as [Hr Ll]; [now left|].
      assert (HG : forall k, k <> l -> sy_type (get_sym (set_rules (set_rules (set_syms f (upd (f_syms f) l (sym_set_type (Some (TyOption match sy_type (get_sym f r) with Some t => t | None => TyUnit end)))))
        (f_rules (set_syms f (upd (f_syms f) l (sym_set_type (Some (TyOption match sy_type (get_sym f r) with Some t => t | None => TyUnit end))))) ++ [mkRule l [] COptNone None None]))
        (f_rules (set_rules (set_syms f (upd (f_syms f) l (sym_set_type (Some (TyOption match sy_type (get_sym f r) with Some t => t | None => TyUnit end)))))
        (f_rules (set_syms f (upd (f_syms f) l (sym_set_type (Some (TyOption match sy_type (get_sym f r) with Some t => t | None => TyUnit end))))) ++ [mkRule l [] COptNone None None])) ++ [mkRule l [(r, true)] COptSome None None])) k) = sy_type (get_sym f k)).
      { intros k Hk. unfold get_sym. cbn. rewrite nth_upd_other; auto. }
      destruct (Nat.eqb_spec l id) as [->|Hne].
      * destruct (find (fun q => snd q =? id) opts) as [[r' l']|] eqn:Ef.
        { exfalso. apply find_some in Ef as [Ef1 Ef2]. cbn in Ef2. apply Nat.eqb_eq in Ef2. subst l'. apply Hni. apply in_map_iff. exists (r', id). auto. }
        unfold get_sym. cbn. rewrite nth_upd_same by auto. reflexivity.
      * destruct (find (fun q => snd q =? id) opts) as [[r' l']|] eqn:Ef.
        { f_equal. f_equal. f_equal. apply HG. intros ->. apply find_some in Ef as [Ef1 _]. destruct (HO l l') as [Hc _]; [now right|]. apply Hc. now left. }
        { apply HG. auto. }
    + intros r' l' Hin. destruct (HO r' l') as [H1 H2]; [now right|]. split; [intros Hc; apply H1; now right|]. cbn. now rewrite upd_length.
Qed.

(** The type of a symbol after %extra_token *)
Definition ext_type (f : fe) (nt i : nat) : option ty :=
  match f_extra_token f with
  | Some et => if (1 <=? index_of (order f) i) && (index_of (order f) i <? nt)
               then match sy_type (get_sym f i) with None => Some et | Some dt => Some (TyPair et dt) end else sy_type (get_sym f i)
  | None => sy_type (get_sym f i)
  end.
Lemma prepare_types ord f g0 : prepare ord f = GOk g0 -> NoDup (map snd (ord (f_opt f))) ->
  (forall r l, In (r, l) (ord (f_opt f)) -> ~ In r (map snd (ord (f_opt f))) /\ l < List.length (f_syms f) /\ r < List.length (f_syms f)) ->
  g_nterm g0 <= List.length (f_syms f) ->
  f_default_type (g_fe g0) = f_default_type f /\ forall i, i < List.length (f_syms f) -> sy_type (gsym g0 (index_of (order f) i)) =
    match find (fun q => snd q =? i) (ord (f_opt f)) with Some (r, _) => Some (TyOption (or_unit (ext_type f (g_nterm g0) r))) | None => ext_type f (g_nterm g0) i end.
Proof.
  unfold prepare. fold (order f). intros H ND HO HN. apply gbind_ok in H as (f2 & H2 & H). injection H as <-. cbn [g_nterm g_fe g_syms] in *.
  set (nt := S match rposition _ _ with Some i => i | None => 0 end) in *.
  assert (HE : List.length (f_syms (extra_token_type f (order f) nt)) = List.length (f_syms f) /\ f_default_type (extra_token_type f (order f) nt) = f_default_type f /\
    f_opt (extra_token_type f (order f) nt) = f_opt f /\ forall id, id < List.length (f_syms f) -> sy_type (get_sym (extra_token_type f (order f) nt) id) = ext_type f nt id).
  { unfold extra_token_type, ext_type. destruct (f_extra_token f) as [et|]; [|splits; auto].
    assert (NDm : NoDup (map (fun i => nth i (order f) 0) (seq 1 (nt - 1)))).
    { apply nodup_map_into; [|apply seq_NoDup]. intros a b Ha Hb E. apply in_seq in Ha, Hb. eapply (NoDup_nth (order f) 0); eauto; [apply order_nodup| |]; rewrite order_len; lia. }
    destruct (set_type_fold (fun o => match o with None => Some et | Some dt => Some (TyPair et dt) end) (order f) (seq 1 (nt - 1)) f NDm) as (B1 & B2 & B3 & B4).
    splits; auto. intros id Hid. rewrite B4 by auto.
    assert (HX : existsb (Nat.eqb id) (map (fun i => nth i (order f) 0) (seq 1 (nt - 1))) = (1 <=? index_of (order f) id) && (index_of (order f) id <? nt)).
    { apply Bool.eq_iff_eq_true. rewrite existsb_exists, andb_true_iff, Nat.leb_le, Nat.ltb_lt. split.
      - intros (x & Hx & E). apply Nat.eqb_eq in E. subst x. apply in_map_iff in Hx as (k & Ek & Hk). apply in_seq in Hk. assert (Lk : k < List.length (order f)) by (rewrite order_len; lia).
        rewrite (index_of_eq f id k) by (rewrite <- Ek; now apply nth_error_nth'). lia.
      - intros [L1 L2]. exists id. rewrite Nat.eqb_refl. split; auto. apply in_map_iff. exists (index_of (order f) id). split; [|apply in_seq; lia].
        apply nth_error_nth with (d := 0). now apply index_of_nth. }
    rewrite HX. reflexivity. }
  destruct HE as (E1 & E2 & E3 & E4). rewrite E3 in H2. apply opt_fold in H2 as [A1 A2]; auto.
  - split; [congruence|]. intros i Hi. unfold gsym. cbn [g_syms]. rewrite (nth_error_nth _ (index_of (order f) i) (x := ren_sym (index_of (order f)) (get_sym f2 i))).
    + cbn. rewrite A2. destruct (find _ _) as [[r l]|] eqn:Ef; [|now apply E4]. apply find_some in Ef as [Ef _]. destruct (HO r l Ef) as (_ & _ & Lr). now rewrite E4.
    + rewrite nth_error_map, index_of_nth by auto. reflexivity.
  - intros r l Hin. destruct (HO r l Hin) as (H1 & H3 & _). rewrite E1. auto.
Qed.

(** Everything but the rules is the same. *)
Definition kept (g0 g : grammar) : Prop := g_syms g = g_syms g0 /\ g_nterm g = g_nterm g0 /\ g_dflt g = g_dflt g0 /\
  g_start g = g_start g0 /\ g_error g = g_error g0 /\ g_wild g = g_wild g0 /\ g_fe g = g_fe g0.
Section Lift.
Context (ord : list (nat * nat) -> list (nat * nat)) (ds : list decl) (f0 f : fe) (g0 g : grammar).
Hypothesis DD : DI ds f0.
Hypothesis Ef : f = set_syms f0 (f_syms f0 ++ [mkSym "{default}" KNonTerm None None 1 None 0]).
Hypothesis D : Decls f.
Hypothesis Pr : prepared ord f g0.
Hypothesis Hord : forall l, Permutation (ord l) l.
Hypothesis Nm : kept (find_rule_precedences g0) g.
Hypothesis NmR : Forall2 (fun r r' => normalize_rule (find_rule_precedences g0) r = GOk r') (g_rules (find_rule_precedences g0)) (g_rules g).
Hypothesis AU : anon_used f0.
Hypothesis OU : opt_used f0.
Hypothesis Pe : prepare ord f = GOk g0.
Hypothesis WG : wf_grammar g.
Hypothesis TU : type_of ds "$" = None.
Hypothesis HSL : forall x, start_line ds = Some x -> lower x.
Notation n := (List.length (f_syms f)).
Notation ix := (index_of (order f)).
Notation AA := (di_ai _ _ DD).
Notation FF := (ai_fi _ _ _ _ _ AA).

Lemma lf_syms : g_syms g = g_syms g0.
Proof. destruct Nm as (E & _). exact E. Qed.
Lemma lf_names : names f = names f0 ++ ["{default}"].
Proof. rewrite Ef. unfold names. cbn. now rewrite map_app. Qed.
Lemma lf_n : n = S (List.length (f_syms f0)).
Proof. rewrite Ef. cbn. rewrite app_length. simpl. lia. Qed.
Lemma lf_grow : grow f0 f.
Proof. rewrite Ef. apply grow_add. Qed.

(** Identifiers and indices *)
Lemma lf_at i x : name_at f i x -> at_name g (ix i) x.
Proof.
  intros H. apply name_sym in H as (s & Hs & Es). destruct (g_sym ord f g0 Pr i s Hs) as (s' & Hs' & En & _). exists s'. rewrite lf_syms. split; auto. congruence.
Qed.
Lemma lf_at0 i x : name_at f0 i x -> at_name g (ix i) x.
Proof. intros H. apply lf_at. exact (ext_nth _ _ _ _ (proj1 lf_grow) H). Qed.
Lemma lf_inv j x : at_name g j x -> exists i, j = ix i /\ name_at f i x /\ i < n.
Proof.
  intros (s & Hs & Es). rewrite lf_syms in Hs. destruct (g_sym_inv ord f g0 Pr j s Hs) as (i & s0 & -> & Hs0 & En & _). exists i. splits; auto.
  - apply names_nth. exists s0. split; auto. congruence.
  - apply nth_error_Some. congruence.
Qed.
Lemma lf_gname i x : name_at f i x -> gname g (ix i) = x.
Proof. intros H. apply lf_at in H as (s & Hs & Es). unfold gname, gsym. now rewrite (nth_error_nth _ _ _ Hs). Qed.

(** A symbol of [g] other than {default} *)
Lemma lf_sym i s : nth_error (f_syms f0) i = Some s -> exists s', nth_error (g_syms g) (ix i) = Some s' /\
  sy_name s' = sy_name s /\ sy_kind s' = ren_kind ix (sy_kind s) /\ sy_fb s' = option_map ix (sy_fb s) /\ sy_prec s' = sy_prec s.
Proof.
  intros H. assert (Hf : nth_error (f_syms f) i = Some s) by (rewrite Ef; cbn; now apply nth_error_ext).
  destruct (g_sym ord f g0 Pr i s Hf) as (s' & Hs' & A1 & A2 & A3 & A4 & _). exists s'. rewrite lf_syms. splits; auto.
Qed.
Lemma lf_sym_inv j s' : nth_error (g_syms g) j = Some s' ->
  (j = g_dflt g /\ sy_name s' = "{default}" /\ sy_kind s' = KNonTerm /\ sy_fb s' = None /\ sy_prec s' = None) \/
  exists i s, j = ix i /\ nth_error (f_syms f0) i = Some s /\ sy_name s' = sy_name s /\ sy_kind s' = ren_kind ix (sy_kind s) /\ sy_fb s' = option_map ix (sy_fb s) /\ sy_prec s' = sy_prec s.
Proof.
  intros H. rewrite lf_syms in H. destruct (g_sym_inv ord f g0 Pr j s' H) as (i & s & -> & Hs & A1 & A2 & A3 & A4 & _).
  rewrite Ef in Hs. cbn in Hs. destruct (Nat.lt_ge_cases i (List.length (f_syms f0))) as [L|L].
  - rewrite nth_error_app1 in Hs by auto. right. exists i, s. splits; auto.
  - rewrite nth_error_app2 in Hs by auto. destruct (i - List.length (f_syms f0)) as [|k] eqn:Ek; [|destruct k; discriminate]. injection Hs as <-.
    left. rewrite A1, A2, A3, A4. cbn. splits; auto. destruct Nm as (_ & _ & -> & _). cbn. rewrite (dflt_ix ord f g0 D Pr). f_equal. rewrite lf_n. simpl. lia.
Qed.

Lemma lf_nm i : i < List.length (names f0) -> gname g (ix i) = nm f0 i.
Proof. intros H. apply lf_gname. unfold nm. apply (ext_nth f0 f _ _ (proj1 lf_grow)). now apply nth_error_nth'. Qed.
Lemma lf_fb i s : nth_error (f_syms f0) i = Some s -> option_map (gname g) (option_map ix (sy_fb s)) = option_map (nm f0) (sy_fb s).
Proof.
  intros H. destruct (fi_syms f0 FF _ _ H) as [_ K]. destruct (sy_fb s) as [c|]; auto. destruct (K c eq_refl) as (_ & T & _). cbn. f_equal. apply lf_nm. now apply tid_lt.
Qed.
Lemma lf_members i s : nth_error (f_syms f0) i = Some s -> members g (ren_kind ix (sy_kind s)) = members_of f0 (sy_kind s).
Proof.
  intros H. destruct (fi_syms f0 FF _ _ H) as [K _]. destruct (sy_kind s) as [| |ms]; auto. destruct K as [_ K]. cbn. f_equal. rewrite map_map.
  apply map_ext_in. intros m Hm. rewrite Forall_forall in K. apply lf_nm. now apply tid_lt, K.
Qed.
Lemma lf_opt_at o x : opt_name f0 o x -> opt_at g (option_map ix o) x.
Proof. destruct o, x; cbn; auto. apply lf_at0. Qed.

Definition gopts : list (nat * nat) := map (fun p => (ix (fst p), ix (snd p))) (ord (f_opt f)).
Lemma gopts_in r l : In (r, l) (f_opt f0) -> In (ix r, ix l) gopts.
Proof.
  intros H. unfold gopts. apply in_map_iff. exists (r, l). split; auto. apply (Permutation_in _ (Permutation_sym (Hord _))). now rewrite Ef.
Qed.
Lemma gopts_inv Y X : In (Y, X) gopts -> exists r l k x, Y = ix r /\ X = ix l /\ nth_error (f_opt f0) k = Some (r, l) /\ name_at f0 r x /\ (upper x \/ lower x) /\ name_at f0 l (optional_name k).
Proof.
  unfold gopts. intros H. apply in_map_iff in H as ([r l] & E & H). injection E as <- <-. apply (Permutation_in _ (Hord _)) in H. rewrite Ef in H. cbn in H.
  destruct (ai_opt _ _ _ _ _ AA r l H) as (x & Hx & Hid). apply In_nth_error in H as [k Hk]. destruct (fi_opt f0 FF k r l Hk) as [_ Hl]. exists r, l, k, x. splits; auto.
Qed.
Lemma lt_of_name i x : name_at f0 i x -> i < n.
Proof. intros H. rewrite lf_n. assert (i < List.length (names f0)) by (apply nth_error_Some; unfold name_at in H; congruence). unfold names in *. rewrite map_length in *. lia. Qed.

(** Elements and rules *)
Lemma lf_elem e p : elem_of f0 e p -> elem_sym g gopts e (ix (fst p)) /\ snd p = alias_of e.
Proof.
  destruct e as [[toks o] al]. unfold elem_of, elem_sym, alias_of. intros [H1 H]. split; auto. destruct toks as [|tok [|tok2 toks]]; auto.
  - destruct H as [Hid H]. split; auto. destruct o; [|now apply lf_at0]. destruct H as (y & Hy & Hn). exists (ix y). split; [now apply gopts_in|now apply lf_at0].
  - destruct H as (Hu & Hn & s & ms & Hs & Hk & Hm). splits; auto; [now apply lf_at0|]. destruct (lf_sym _ _ Hs) as (s' & Hs' & _ & A2 & _). exists (map ix ms). split.
    + unfold kind_at. rewrite Hs'. cbn. now rewrite A2, Hk.
    + clear -Hm Pr Ef Nm. induction Hm; cbn; constructor; auto. now apply lf_at0.
Qed.

Lemma lf_has_type X : has_type g X = has_type (find_rule_precedences g0) X.
Proof. unfold has_type, gsym. cbn. now rewrite lf_syms. Qed.
Lemma lf_rsp X : rhs_sym_prec g X = rhs_sym_prec g0 X.
Proof. unfold rhs_sym_prec, gsym. now rewrite lf_syms. Qed.
Lemma first_some_ext {A B} (h h' : A -> option B) l : (forall a, h a = h' a) -> first_some h l = first_some h' l.
Proof. intros H. induction l as [|a l IH]; cbn; auto. rewrite H, IH. reflexivity. Qed.
Lemma first_some_map {A B C} (h : B -> option C) (k : A -> B) l : first_some h (map k l) = first_some (fun a => h (k a)) l.
Proof. induction l as [|a l IH]; cbn; auto. now rewrite IH. Qed.

Lemma lf_rule d ru0 ru : rule_of f0 d ru0 -> rule_ok (names f0) ru0 ->
  normalize_rule (find_rule_precedences g0) (mkRule (ix (r_lhs ru0)) (map (fun p => (ix (fst p), snd p)) (r_rhs ru0)) (r_code ru0) (option_map ix (r_precsym ru0))
     (rule_precedence g0 (ren_rule ix ru0))) = GOk ru -> rule_made g gopts d ru.
Proof.
  intros (H1 & H2 & H3 & H4 & H5) (K1 & _) Hn. pose proof (normalize_like _ _ _ Hn) as [(L1 & L2 & L3) L4]. cbn in L1, L2, L3, L4. rewrite map_map in L2. cbn in L2.
  assert (HE : Forall2 (elem_sym g gopts) (d_rhs d) (map (fun p => ix (fst p)) (r_rhs ru0)) /\ map snd (r_rhs ru0) = map alias_of (d_rhs d)).
  { clear -H2 DD Ef Pr Nm Hord. induction H2 as [|e p es ps He H2 IH]; cbn; [split; auto|]. apply lf_elem in He as [A1 A2]. destruct IH as [B1 B2]. split; [constructor; auto|congruence]. }
  destruct HE as [HE HA]. constructor.
  - rewrite L1. now apply lf_at0.
  - destruct K1 as (x & Hx & Lx). unfold name_at in H1. rewrite H1 in Hx. now injection Hx as <-.
  - rewrite L2. exact HE.
  - rewrite L3. now apply lf_opt_at.
  - unfold normalize_rule in Hn. cbn [r_code] in Hn. rewrite H3 in Hn. destruct (d_code d) as [c|].
    + injection Hn as <-. cbn. rewrite map_map. cbn. auto.
    + cbn [r_lhs r_rhs r_precsym r_prec] in Hn. rewrite <- lf_has_type in Hn. destruct (has_type g (ix (r_lhs ru0))) eqn:Et.
      * right. destruct (forallb _ _ && _) eqn:Eb; [|discriminate]. apply andb_true_iff in Eb as [Eb1 Eb2]. apply Nat.eqb_eq in Eb2. injection Hn as <-. cbn [r_code r_lhs r_rhs].
        assert (HF : Forall (fun e => alias_of e = false) (d_rhs d)).
        { rewrite forallb_forall in Eb1. apply Forall_forall. intros e He. assert (Hal : In (alias_of e) (map snd (r_rhs ru0))) by (rewrite HA; now apply in_map).
          apply in_map_iff in Hal as (p & Ep & Hp). rewrite <- Ep. specialize (Eb1 (ix (fst p), snd p)). cbn in Eb1. destruct (snd p) eqn:E; auto. exfalso. assert (HX : negb true = true) by (apply Eb1, in_map_iff; exists p; rewrite E; auto). discriminate HX. }
        splits; auto.
        -- rewrite !map_map. cbn. apply map_ext_in. intros p Hp. rewrite <- lf_has_type. destruct (has_type g (ix (fst p))) eqn:E; auto.
           assert (Hal : In (snd p) (map alias_of (d_rhs d))) by (rewrite <- HA; now apply in_map). apply in_map_iff in Hal as (e & Ee & He). rewrite Forall_forall in HF. rewrite <- Ee. auto.
        -- rewrite <- Eb2. generalize (map (fun p : nat * bool => (ix (fst p), snd p)) (r_rhs ru0)) as l. induction l as [|[X al] l IH]; cbn; auto. rewrite <- lf_has_type.
           destruct (has_type g X); cbn; auto.
      * left. injection Hn as <-. cbn. rewrite map_map. cbn. auto.
  - rewrite L4, L3. unfold rule_precedence. cbn [ren_rule r_precsym r_rhs]. destruct (option_map ix (r_precsym ru0)) as [ps|] eqn:Ep.
    + unfold gsym. now rewrite lf_syms.
    + transitivity (first_some (rhs_sym_prec g) (map fst (r_rhs ru))); [|apply first_some_map]. rewrite L2. rewrite !first_some_map. apply first_some_ext. intros p. cbn. symmetry. apply lf_rsp.
Qed.

Lemma lf_opt_rules l rs : Forall2 (fun r r' => normalize_rule (find_rule_precedences g0) (mkRule (r_lhs r) (r_rhs r) (r_code r) (r_precsym r) (rule_precedence g0 r)) = GOk r')
   (map (ren_rule ix) (opt_rules_of l)) rs -> rs = flat_map (opt_made g) (map (fun p => (ix (fst p), ix (snd p))) l).
Proof.
  revert rs. induction l as [|[r x] l IH]; intros rs H; [apply f2_nil_l in H as ->; reflexivity|]. cbn [opt_rules_of flat_map map app] in H.
  apply f2_cons_l in H as (r1 & rs1 & -> & H1 & HT). apply f2_cons_l in HT as (r2 & rs2 & -> & H2 & HT2). apply IH in HT2. subst rs2. cbn in H1, H2. injection H1 as <-. injection H2 as <-.
  cbn. f_equal. f_equal. f_equal. rewrite lf_rsp. unfold rule_precedence. cbn. now destruct (rhs_sym_prec g0 (ix r)).
Qed.

Lemma lf_fopt r l : In (r, l) (ord (f_opt f)) -> exists k x, name_at f0 r x /\ (upper x \/ lower x) /\ name_at f0 l (optional_name k).
Proof.
  intros H. apply (Permutation_in _ (Hord _)) in H. rewrite Ef in H. cbn in H. destruct (ai_opt _ _ _ _ _ AA _ _ H) as (x & Hx & Hu). apply In_nth_error in H as [k Hk].
  destruct (fi_opt f0 FF k r l Hk) as [_ Hl]. exists k, x. auto.
Qed.
Lemma lf_nodup : NoDup (map snd (ord (f_opt f))).
Proof.
  apply Permutation_NoDup with (map snd (f_opt f0)); [apply Permutation_map; rewrite Ef; symmetry; apply Hord|].
  apply NoDup_nth_error. intros a b La E. rewrite map_length in La. rewrite !nth_error_map in E.
  destruct (nth_error (f_opt f0) a) as [[ra la]|] eqn:Ea; [|apply nth_error_None in Ea; lia]. destruct (nth_error (f_opt f0) b) as [[rb lb]|] eqn:Eb; [|discriminate]. cbn in E. injection E as <-.
  pose proof (proj2 (fi_opt f0 FF _ _ _ Ea)) as H1. pose proof (proj2 (fi_opt f0 FF _ _ _ Eb)) as H2. apply optional_name_inj. congruence.
Qed.
Lemma lf_types : f_default_type (g_fe g0) = f_default_type f /\ forall i, i < n -> sy_type (gsym g0 (ix i)) =
    match find (fun q => snd q =? i) (ord (f_opt f)) with Some (r, _) => Some (TyOption (or_unit (ext_type f (g_nterm g0) r))) | None => ext_type f (g_nterm g0) i end.
Proof.
  apply prepare_types; auto; [apply lf_nodup| |].
  - intros r l Hin. destruct (lf_fopt r l Hin) as (k & x & Hr & Hx & Hl). splits; [|eapply lt_of_name; eauto|eapply lt_of_name; eauto].
    intros Hc. apply in_map_iff in Hc as ([r' l'] & E & Hin'). cbn in E. subst l'. destruct (lf_fopt r' r Hin') as (k' & _ & _ & _ & Hk). unfold name_at in *. assert (x = optional_name k') by congruence. subst x.
    destruct Hx as [Hx|Hx]; [eapply upper_not_lowish; [exact Hx|right; eauto]|discriminate].
  - pose proof (wg_dflt_range g WG) as HR. rewrite lf_syms, (g_len ord f g0 Pr) in HR. pose proof Nm as (_ & En & _). cbn in En. rewrite <- En. lia.
Qed.
Lemma lf_ext i x : name_at f0 i x -> (upper x \/ lower x \/ x = "") -> ext_type f (g_nterm g0) i = if (x =? "")%string then None else raw_type ds x.
Proof.
  intros Hx Hid. pose proof (lt_of_name i x Hx) as Li. apply name_sym in Hx as (s & Hs & Es).
  assert (HF : nth_error (f_syms f) i = Some s) by (rewrite Ef; cbn; now apply nth_error_ext). unfold ext_type, get_sym. rewrite (nth_error_nth _ _ _ HF).
  destruct (g_sym ord f g0 Pr i s HF) as (s' & Hs' & _ & A2 & _).
  assert (HT : 1 <= ix i < g_nterm g0 -> sy_kind s = KTerm).
  { intros [L1 L2]. pose proof Nm as (_ & En & _). cbn in En. rewrite <- En in L2. pose proof (wg_dflt_range g WG) as HR.
    assert (Hk : kind_at g (ix i) = Some KTerm) by (apply (wg_term g WG); [lia|auto]). unfold kind_at in Hk. rewrite lf_syms, Hs' in Hk. injection Hk as Hk. rewrite A2 in Hk. now destruct (sy_kind s). }
  assert (HT2 : sy_kind s = KTerm -> upper x -> 1 <= ix i < g_nterm g0).
  { intros Hk U. pose proof Nm as (_ & En & _). cbn in En. rewrite <- En. split.
    - enough (ix i <> 0) by lia. apply (ix_nz ord f g0 D Pr); auto. intros ->. destruct (fi_head f0 FF) as [r Er]. unfold names in Er. destruct (f_syms f0) as [|a l]; [discriminate|]. injection Hs as ->. cbn in Er.
      injection Er as Er _. rewrite Es in Er. rewrite Er in U. now apply upper_dollar in U.
    - assert (Ls : ix i < List.length (g_syms g)) by (rewrite lf_syms; apply nth_error_Some; congruence). apply (wg_term g WG); auto. unfold kind_at. rewrite lf_syms, Hs'. cbn. now rewrite A2, Hk. }
  assert (Eet : f_extra_token f = extra_token_of ds) by (rewrite Ef; cbn; apply (di_et _ _ DD)). rewrite Eet.
  destruct (String.eqb_spec x "") as [->|Hne].
  - destruct (ai_anon _ _ _ _ _ AA _ _ Hs Es) as (_ & Ht & _). rewrite Ht. destruct (extra_token_of ds) as [et|]; auto. destruct (_ && _) eqn:E; auto. apply andb_true_iff in E as [E1 E2]. apply Nat.leb_le in E1. apply Nat.ltb_lt in E2.
    exfalso. destruct (fi_syms f0 FF _ _ Hs) as [K _]. rewrite (HT (conj E1 E2)), Es in K. cbn in K. destruct K as [->|K]; [|now apply upper_empty in K]. rewrite (ix_0 ord f g0 D Pr) in E1. lia.
  - rewrite <- Es in Hne. destruct (ai_sym _ _ _ _ _ AA _ _ Hs Hne) as (_ & Ht & _ & Hm). rewrite Es in *. rewrite Ht. unfold raw_type. destruct (extra_token_of ds) as [et|]; auto.
    destruct Hid as [U|[L|E0]]; [| |contradiction].
    + change (is_terminal_ident x) with (is_terminal_ident x). assert (U' : is_terminal_ident x = true) by exact U. rewrite U'.
      destruct (fi_syms f0 FF _ _ Hs) as [K _]. destruct (sy_kind s) as [| |ms] eqn:Ek.
      * cbn in Hm. rewrite <- Hm. destruct (HT2 eq_refl U) as [L1 L2]. apply Nat.leb_le in L1. apply Nat.ltb_lt in L2. now rewrite L1, L2.
      * exfalso. cbn in K. rewrite Es in K. eapply upper_not_lowish; eauto.
      * cbn in Hm. rewrite <- Hm. destruct (_ && _) eqn:E; auto. apply andb_true_iff in E as [E1 E2]. apply Nat.leb_le in E1. apply Nat.ltb_lt in E2. discriminate (HT (conj E1 E2)).
    + assert (U' : is_terminal_ident x = false) by (destruct (is_terminal_ident x) eqn:U; auto; exfalso; eapply upper_not_lowish; [exact U|now left]). rewrite U'.
      destruct (_ && _) eqn:E; [|now destruct (class_of ds x)]. apply andb_true_iff in E as [E1 E2]. apply Nat.leb_le in E1. apply Nat.ltb_lt in E2.
      exfalso. destruct (fi_syms f0 FF _ _ Hs) as [K _]. rewrite (HT (conj E1 E2)), Es in K. cbn in K. destruct K as [->|K]; [rewrite (ix_0 ord f g0 D Pr) in E1; lia|]. eapply upper_not_lowish; [exact K|now left].
Qed.
Lemma lf_gsym i : gsym g i = gsym g0 i.
Proof. unfold gsym. now rewrite lf_syms. Qed.
Lemma lf_plain i x : name_at f0 i x -> (upper x \/ lower x \/ x = "") -> sy_type (gsym g (ix i)) = if (x =? "")%string then None else raw_type ds x.
Proof.
  intros Hx Hid. rewrite lf_gsym, (proj2 lf_types i) by (eapply lt_of_name; eauto).
  destruct (find (fun q => snd q =? i) (ord (f_opt f))) as [[r l]|] eqn:Ef'; [|now apply lf_ext].
  exfalso. apply find_some in Ef' as [Hin E]. cbn in E. apply Nat.eqb_eq in E. subst l. destruct (lf_fopt r i Hin) as (k & _ & _ & _ & Hk). unfold name_at in *. assert (x = optional_name k) by congruence. subst x.
  destruct Hid as [U|[L|E0]]; [eapply upper_not_lowish; [exact U|right; eauto]|discriminate|discriminate].
Qed.
Lemma lf_at_id i x : at_name g i x -> (upper x \/ lower x \/ x = "") -> exists j, i = ix j /\ name_at f0 j x.
Proof.
  intros H Hid. apply lf_inv in H as (j & -> & Hj & _). exists j. split; auto. unfold name_at in *. rewrite lf_names in Hj.
  destruct (Nat.lt_ge_cases j (List.length (names f0))) as [L|L]; [now rewrite nth_error_app1 in Hj by auto|].
  exfalso. rewrite nth_error_app2 in Hj by auto. destruct (j - List.length (names f0)) as [|k]; [|destruct k; discriminate]. injection Hj as <-.
  destruct Hid as [U|[L1|E0]]; [now apply upper_default in U|discriminate|discriminate].
Qed.
Lemma lf_type i x : at_name g i x -> upper x \/ lower x -> sy_type (gsym g i) = raw_type ds x.
Proof.
  intros H Hid. assert (Hid' : upper x \/ lower x \/ x = "") by tauto. destruct (lf_at_id i x H Hid') as (j & -> & Hj). rewrite (lf_plain j x Hj Hid').
  destruct (String.eqb_spec x "") as [->|]; auto. destruct Hid; discriminate.
Qed.
Lemma lf_type_anon i : at_name g i "" -> sy_type (gsym g i) = None.
Proof. intros H. destruct (lf_at_id i "" H) as (j & -> & Hj); auto. rewrite (lf_plain j "" Hj) by auto. reflexivity. Qed.
Lemma lf_type_opt Y X : In (Y, X) gopts -> sy_type (gsym g X) = Some (TyOption (or_unit (sy_type (gsym g Y)))).
Proof.
  intros H. unfold gopts in H. apply in_map_iff in H as ([r l] & E & Hin). injection E as <- <-. destruct (lf_fopt r l Hin) as (k & x & Hr & Hx & Hl).
  rewrite !lf_gsym, !(proj2 lf_types) by (eapply lt_of_name; eauto).
  destruct (find (fun q => snd q =? l) (ord (f_opt f))) as [[r' l']|] eqn:E1.
  - apply find_some in E1 as [Hin' E]. cbn in E. apply Nat.eqb_eq in E. subst l'. assert (r' = r).
    { pose proof lf_nodup as ND. clear -ND Hin Hin'. induction (ord (f_opt f)) as [|[a b] L IH]; [destruct Hin|]. cbn in ND. inversion ND as [|? ? Hni ND']; subst.
      destruct Hin as [E|Hin], Hin' as [E'|Hin']; try congruence; auto.
      - injection E as -> ->. exfalso. apply Hni. apply in_map_iff. exists (r', l). auto.
      - injection E' as -> ->. exfalso. apply Hni. apply in_map_iff. exists (r, l). auto. }
    subst r'. destruct (find (fun q => snd q =? r) (ord (f_opt f))) as [[r2 l2]|] eqn:E2; auto. exfalso. apply find_some in E2 as [Hin2 E]. cbn in E. apply Nat.eqb_eq in E. subst l2.
    destruct (lf_fopt r2 r Hin2) as (k' & _ & _ & _ & Hk). unfold name_at in *. assert (x = optional_name k') by congruence. subst x.
    destruct Hx as [Hx|Hx]; [eapply upper_not_lowish; [exact Hx|right; eauto]|discriminate].
  - exfalso. apply (find_none _ _ E1) in Hin. cbn in Hin. now rewrite Nat.eqb_refl in Hin.
Qed.
Lemma lf_special : sy_type (gsym g 0) = None /\ sy_type (gsym g (g_dflt g)) = None.
Proof.
  pose proof Nm as (_ & En & Ed & _). cbn in En, Ed. pose proof (wg_dflt_range g WG) as HR. pose proof (proj2 lf_types) as HT.
  assert (Hfi : forall i x, name_at f i x -> (forall k, x <> optional_name k) -> find (fun q => snd q =? i) (ord (f_opt f)) = None).
  { intros i x Hx Hk. destruct (find (fun q => snd q =? i) (ord (f_opt f))) as [[r l]|] eqn:Ef'; auto. exfalso. apply find_some in Ef' as [Hin E]. cbn in E. apply Nat.eqb_eq in E. subst l.
    destruct (lf_fopt r i Hin) as (k & _ & _ & _ & Hj). apply (Hk k). unfold name_at in *. rewrite lf_names in Hx. rewrite nth_error_app1 in Hx by (apply nth_error_Some; congruence). congruence. }
  split.
  - rewrite lf_gsym. destruct (fi_head f0 FF) as [r Er]. assert (L0 : 0 < n) by (rewrite Ef; cbn; rewrite app_length; cbn; lia). rewrite <- (ix_0 ord f g0 D Pr) at 1. rewrite HT by auto.
    assert (H0 : name_at f0 0 "$") by (unfold name_at; rewrite Er; reflexivity).
    rewrite (Hfi 0 "$"); [|unfold name_at in *; rewrite lf_names; now apply nth_error_ext|intros k E; discriminate].
    unfold ext_type. rewrite (ix_0 ord f g0 D Pr). cbn [Nat.leb andb]. apply name_sym in H0 as (s & Hs & Es).
    assert (HF : nth_error (f_syms f) 0 = Some s) by (rewrite Ef; cbn [set_syms f_syms]; now apply nth_error_ext). unfold get_sym. rewrite (nth_error_nth _ _ _ HF).
    assert (Hne : sy_name s <> "") by (rewrite Es; discriminate). destruct (ai_sym _ _ _ _ _ AA _ _ Hs Hne) as (_ & Ht & _). rewrite Ht, Es, TU. now destruct (f_extra_token f).
  - rewrite lf_gsym, Ed, (dflt_ix ord f g0 D Pr). assert (Ln : pred n < n) by (rewrite Ef; cbn; rewrite app_length; cbn; lia). rewrite HT by auto.
    assert (Ep : pred n = List.length (f_syms f0)) by (rewrite Ef; cbn; rewrite app_length; cbn; lia).
    assert (HF : nth_error (f_syms f) (pred n) = Some (mkSym "{default}" KNonTerm None None 1 None 0)) by (rewrite Ep, Ef; cbn; rewrite nth_error_app2, Nat.sub_diag by auto; reflexivity).
    rewrite (Hfi (pred n) "{default}"); [| |intros k E; discriminate].
    + unfold ext_type, get_sym. rewrite (nth_error_nth _ _ _ HF). destruct (f_extra_token f) as [et|]; auto. destruct (index_of (order f) (pred n) <? g_nterm g0) eqn:El; [|now rewrite andb_false_r].
      exfalso. apply Nat.ltb_lt in El. rewrite <- (dflt_ix ord f g0 D Pr) in El. rewrite <- Ed, <- En in El. lia.
    + unfold name_at, names. rewrite nth_error_map, HF. reflexivity.
Qed.
Lemma lf_dflt : f_default_type (g_fe g) = default_type_of ds.
Proof.
  replace (g_fe g) with (g_fe g0).
  - rewrite (proj1 lf_types), Ef. cbn. apply (di_dt _ _ DD).
  - now destruct Nm as (_ & _ & _ & _ & _ & _ & ->).
Qed.

Theorem lift_declared : declared ds g gopts.
Proof.
  pose proof FF as F. constructor.
  - intros i j x Hi Hj Hx. apply lf_inv in Hi as (a & -> & Ha & La), Hj as (b & -> & Hb & Lb). f_equal. unfold name_at in *. rewrite lf_names in *.
    assert (HX : forall i, nth_error (names f0 ++ ["{default}"]) i = Some x -> nth_error (names f0) i = Some x \/ i = List.length (names f0) /\ x = "{default}").
    { intros i H. destruct (Nat.lt_ge_cases i (List.length (names f0))) as [L|L]; [rewrite nth_error_app1 in H by auto; auto|].
      rewrite nth_error_app2 in H by auto. destruct (i - List.length (names f0)) as [|k] eqn:E; [|destruct k; discriminate]. injection H as <-. right. split; auto. lia. }
    apply HX in Ha as [Ha|[Ea Exa]], Hb as [Hb|[Eb Exb]]; try congruence.
    + eapply (fi_uniq f0 F); eauto.
    + subst x. apply nth_error_In in Ha. now apply (fi_tail f0 F) in Ha.
    + subst x. apply nth_error_In in Hb. now apply (fi_tail f0 F) in Hb.
  - intros j s Hs Hne. destruct (lf_sym_inv j s Hs) as [(_ & E & Hk & Hf & Hp)|(i & s0 & -> & H0 & A1 & A2 & A3 & A4)].
    + rewrite E, Hk, Hf, Hp. destruct (ai_out _ _ _ _ _ AA "{default}") as (O1 & _ & O3 & O4); [discriminate|intros Hin; now apply (fi_tail f0 F) in Hin|]. cbn. auto.
    + rewrite A1, A2, A3, A4. rewrite A1 in Hne. destruct (ai_sym _ _ _ _ _ AA _ _ H0 Hne) as (P1 & _ & P3 & P4). rewrite (lf_fb _ _ H0), (lf_members _ _ H0). auto.
  - intros j s Hs H0. destruct (lf_sym_inv j s Hs) as [(_ & E & _)|(i & s0 & -> & Hs0 & A1 & A2 & A3 & A4)]; [congruence|].
    rewrite A1 in H0. destruct (ai_anon _ _ _ _ _ AA _ _ Hs0 H0) as (B1 & B2 & B3). rewrite A2, A3, A4, B1, B3. split; auto. split; auto. split.
    2:{ destruct (AU i) as (ru & p & H1 & H2 & <-); [apply names_nth; eauto|]. destruct (forall2_in_r _ _ _ (di_rules _ _ DD) _ H1) as (d & Hd & (_ & Hr & _)).
        destruct (forall2_in_r _ _ _ Hr _ H2) as (e & He & Hp). exists d, e. splits; auto. now apply lf_elem. }
    destruct (fi_syms f0 F _ _ Hs0) as [K _]. rewrite H0 in K. destruct (sy_kind s0) as [| |ms]; cbn in K; [|now apply lowish_empty in K|exists (map ix ms); reflexivity].
    destruct K as [->|K]; [|now apply upper_empty in K]. destruct (fi_head f0 F) as [r Er]. unfold names in Er. destruct (f_syms f0) as [|a l]; [discriminate|]. injection Hs0 as ->. cbn in Er. congruence.
  - intros j s Hs Hne. destruct (lf_sym_inv j s Hs) as [(E1 & E2 & E3 & _)|(i & s0 & -> & Hs0 & A1 & A2 & _)]; [now do 4 right|].
    rewrite A1 in *. destruct (fi_syms f0 F _ _ Hs0) as [K _]. rewrite A2.
    assert (Hz : i = 0 -> sy_name s0 = "$").
    { intros ->. destruct (fi_head f0 F) as [r Er]. unfold names in Er. destruct (f_syms f0) as [|a l]; [discriminate|]. injection Hs0 as ->. cbn in Er. congruence. }
    assert (Hnz : upper (sy_name s0) -> ix i <> 0).
    { intros U. apply (ix_nz ord f g0 D Pr); [apply (lt_of_name i (sy_name s0)), names_nth; eauto|]. intros H0. rewrite (Hz H0) in U. now apply upper_dollar in U. }
    destruct (sy_kind s0) as [| |ms]; cbn in K; cbn [ren_kind].
    + destruct K as [->|K]; [left; splits; auto; apply (ix_0 ord f g0 D Pr)|]. right; left. splits; auto. discriminate.
    + destruct K as [K|K]; [right; right; left; auto|]. right; right; right; left. auto.
    + destruct K as [[K|K] _]; [|contradiction]. right; left. splits; auto. discriminate.
  - intros X ms m HX Hm. unfold kind_at in HX. destruct (nth_error (g_syms g) X) as [s|] eqn:Es; [|discriminate]. injection HX as HX.
    destruct (lf_sym_inv X s Es) as [(_ & _ & E & _)|(i & s0 & -> & Hs0 & A1 & A2 & _)]; [congruence|]. rewrite A2 in HX. destruct (fi_syms f0 F _ _ Hs0) as [K _].
    destruct (sy_kind s0) as [| |ms0]; try discriminate. injection HX as <-. apply in_map_iff in Hm as (m0 & <- & Hm). destruct K as [_ K]. rewrite Forall_forall in K. destruct (K _ Hm) as (y & Hy & U).
    rewrite (lf_gname m0 y); auto. exact (ext_nth _ _ _ _ (proj1 lf_grow) Hy).
  - intros j s c Hs Hc. destruct (lf_sym_inv j s Hs) as [(_ & _ & _ & E & _)|(i & s0 & -> & Hs0 & A1 & A2 & A3 & _)]; [congruence|]. rewrite A3 in Hc.
    destruct (fi_syms f0 F _ _ Hs0) as [_ K]. destruct (sy_fb s0) as [c0|]; [|discriminate]. injection Hc as <-. destruct (K c0 eq_refl) as (_ & (y & Hy & U) & _).
    rewrite (lf_gname c0 y); auto. exact (ext_nth _ _ _ _ (proj1 lf_grow) Hy).
  - rewrite <- (ix_0 ord f g0 D Pr). apply lf_at0. unfold name_at. destruct (fi_head f0 F) as [r ->]. reflexivity.
  - pose proof Nm as (_ & _ & _ & _ & Eerr & _). rewrite Eerr. cbn. rewrite (pr_error _ _ _ Pr). apply lf_at0. unfold name_at. destruct (fi_head f0 F) as [r ->]. reflexivity.
  - intros x Hx HN. destruct (ai_out _ _ _ _ _ AA x) as (O1 & _ & O3 & O4); auto. intros Hin. apply In_nth_error in Hin as [i Hi]. apply (HN (ix i)). now apply lf_at0.
  - intros Y X H. apply gopts_inv in H as (r & l & k & x & -> & -> & _ & Hx & Hid & Hl). split; [exists x; split; auto; now apply lf_at0|exists k; now apply lf_at0].
  - unfold gopts. rewrite map_map. cbn. apply Permutation_NoDup with (map (fun p => ix (fst p)) (f_opt f0)).
    { apply Permutation_map. rewrite Ef. symmetry. apply Hord. }
    rewrite <- (map_map fst ix). apply nodup_map_into; [|apply (fi_optn f0 F)]. intros a b Ha Hb. apply in_map_iff in Ha as ([ra la] & <- & Ha), Hb as ([rb lb] & <- & Hb).
    destruct (ai_opt _ _ _ _ _ AA _ _ Ha) as (xa & Hxa & _). destruct (ai_opt _ _ _ _ _ AA _ _ Hb) as (xb & Hxb & _). apply index_of_inj; eapply lt_of_name; eauto.
  - unfold gopts. rewrite map_map. cbn. apply Permutation_NoDup with (map (fun p => ix (snd p)) (f_opt f0)).
    { apply Permutation_map. rewrite Ef. symmetry. apply Hord. }
    rewrite <- (map_map snd ix).
    assert (HL : forall k r l, nth_error (f_opt f0) k = Some (r, l) -> name_at f0 l (optional_name k)) by (intros k r l Hk; now apply (fi_opt f0 F k r l)).
    apply nodup_map_into.
    + intros a b Ha Hb. apply in_map_iff in Ha as ([ra la] & <- & Ha), Hb as ([rb lb] & <- & Hb). apply In_nth_error in Ha as [ka Ha], Hb as [kb Hb]. apply HL in Ha, Hb.
      apply index_of_inj; eapply lt_of_name; eauto.
    + apply NoDup_nth_error. intros a b La E. rewrite map_length in La. rewrite !nth_error_map in E.
      destruct (nth_error (f_opt f0) a) as [[ra la]|] eqn:Ea; [|apply nth_error_None in Ea; lia]. destruct (nth_error (f_opt f0) b) as [[rb lb]|] eqn:Eb; [|discriminate]. cbn in E. injection E as <-.
      apply HL in Ea, Eb. unfold name_at in *. apply optional_name_inj. congruence.
  - intros j k Hj. apply lf_inv in Hj as (i & -> & Hi & _). unfold name_at in Hi. rewrite lf_names in Hi.
    destruct (Nat.lt_ge_cases i (List.length (names f0))) as [L|L].
    + rewrite nth_error_app1 in Hi by auto. pose proof (fi_optc f0 F _ _ Hi) as Hk. apply nth_error_Some in Hk. destruct (nth_error (f_opt f0) k) as [[r l]|] eqn:Ek; [|congruence].
      pose proof (fi_opt f0 F k r l Ek) as [_ Hl]. assert (i = l) by (eapply (fi_uniq f0 F); eauto; discriminate). subst l.
      apply in_map_iff. exists (ix r, ix i). split; auto. apply gopts_in. eapply nth_error_In; eauto.
    + rewrite nth_error_app2 in Hi by auto. destruct (i - List.length (names f0)) as [|k0]; [|destruct k0; discriminate]. injection Hi as Hi. discriminate.
  - intros Y X H. apply gopts_inv in H as (r & l & k & x & -> & -> & Hk & Hx & _ & Hl). destruct (OU r l) as (ru & p & H1 & H2 & <-); [eapply nth_error_In; eauto|].
    destruct (forall2_in_r _ _ _ (di_rules _ _ DD) _ H1) as (d & Hd & (_ & Hr & _)). destruct (forall2_in_r _ _ _ Hr _ H2) as (e & He & Hp).
    destruct e as [[toks o] al]. unfold elem_of in Hp. destruct Hp as [_ Hp]. unfold name_at in *. destruct toks as [|tok [|tok2 toks]]; [contradiction| |destruct Hp as (_ & E & _); rewrite E in Hl; discriminate].
    destruct Hp as [Hid Hp]. destruct o; [|exfalso; rewrite Hp in Hl; injection Hl as ->; destruct Hid as [U|U]; [eapply upper_not_lowish; [exact U|right; eauto]|discriminate U]].
    destruct Hp as (y & Hy & Hn). exists d, tok, al. splits; auto. apply In_nth_error in Hy as [k' Hk']. pose proof (proj2 (fi_opt f0 F _ _ _ Hk')) as Hl'.
    assert (k' = k) by (apply optional_name_inj; unfold name_at in *; congruence). subst k'. assert (y = r) by congruence. subst y. now apply lf_at0.
  - destruct (pr_f2 _ _ _ Pr) as (f2 & _ & HR & _ & _ & HG). pose proof NmR as HF. cbn in HF.
    apply f2_map_l in HF. cbn in HF. rewrite HG, HR, map_app in HF. apply Forall2_app_inv_l in HF as (rs & rs2 & HF1 & HF2 & HE).
    exists rs. split.
    + rewrite HE. f_equal. apply lf_opt_rules. exact HF2.
    + apply f2_map_l in HF1. assert (Erf : f_rules f = f_rules f0) by now rewrite Ef. rewrite Erf in HF1.
      pose proof (di_rules _ _ DD) as HD. pose proof (fi_rules f0 F) as HO. clear HE HF2 HG HR Erf. generalize dependent rs. induction HD as [|d ru0 dr rr Hd HD IH]; intros rs HF1.
      * apply f2_nil_l in HF1 as ->. constructor.
      * apply f2_cons_l in HF1 as (ru & rs1 & -> & Hru & HF3). apply Forall_cons_iff in HO as [Ho1 Ho2]. constructor; [|now apply IH]. eapply lf_rule; eauto.
  - apply lf_type.
  - apply lf_type_anon.
  - apply lf_special.
  - apply lf_type_opt.
  - apply lf_dflt.
  - pose proof Nm as (_ & _ & _ & _ & _ & Ew & _). rewrite Ew. cbn. rewrite (pr_wild _ _ _ Pr).
    replace (f_wild f) with (f_wild f0) by (now rewrite Ef). apply lf_opt_at. apply DD.
  - pose proof Nm as (_ & _ & _ & Es & _). rewrite Es. cbn. rewrite (pr_start _ _ _ Pr).
    replace (f_start f) with (f_start f0) by (now rewrite Ef). pose proof (di_start _ _ DD) as HS. unfold start_of. destruct (f_start f0) as [s|] eqn:Est; destruct (start_line ds) as [x|]; try contradiction.
    + exists x. splits; auto. now apply lf_at0.
    + pose proof (di_rules _ _ DD) as HD. pose proof (dc_rules f D) as HR. replace (f_rules f) with (f_rules f0) in * by (now rewrite Ef). pose proof (fi_rules f0 F) as HO. destruct HD as [|d ru0 dr rr (Hd1 & _) HD]; [contradiction|].
      cbn. exists (d_lhs d). splits; auto; [now apply lf_at0|]. apply Forall_cons_iff in HO as [((y & Hy & Ly) & _) _]. unfold name_at in Hd1. rewrite Hd1 in Hy. now injection Hy as <-.
Qed.
End Lift.

Lemma first_of_in {A B} (h : A -> option B) l b : first_of h l = Some b -> exists a, In a l /\ h a = Some b.
Proof. induction l as [|a l IH]; cbn; [discriminate|]. destruct (h a) eqn:E; [injection 1 as ->; eauto|]. intros H. destruct (IH H) as (a' & H1 & H2). eauto. Qed.

Lemma gfold_each {A S} (F : S -> A -> gres S) l : forall s s', gfold F l s = GOk s' -> forall a, In a l -> exists s1 s2, F s1 a = GOk s2.
Proof.
  induction l as [|x l IH]; intros s s' H a Ha; [destruct Ha|]. cbn [gfold] in H. apply gbind_ok in H as (s1 & H1 & H). destruct Ha as [->|Ha]; eauto.
Qed.

Lemma start_lower fuel ds f x : gfold (parse_one_decl fuel) ds fe_init = GOk f -> start_line ds = Some x -> lower x.
Proof.
  intros H Hx. apply first_of_in in Hx as (d & Hd & E). destruct d; try discriminate. injection E as ->. destruct (gfold_each _ _ _ _ H _ Hd) as (s1 & s2 & H1).
  cbn [parse_one_decl] in H1. destruct (opt_is_some (f_start s1)); [discriminate|]. destruct (is_nonterminal_ident x) eqn:L; [exact L|discriminate].
Qed.

Theorem front_declared fuel ord ds f g0 g : hash_order ord -> new_from_decls fuel ds = GOk f -> prepare ord f = GOk g0 ->
  normalize_rules (find_rule_precedences g0) = GOk g -> exists opts, declared ds g opts.
Proof.
  intros Ho Hf H0 H1. pose proof (new_from_decls_spec _ _ _ Hf) as D. pose proof (prepared_wf _ _ _ _ D Ho H0 H1) as HWG. apply prepare_spec in H0 as H0'.
  unfold new_from_decls in Hf. apply gbind_ok in Hf as (f0 & Hd & Hf). pose proof (decls_DI _ _ _ Hd) as DD. pose proof (start_lower fuel ds f0) as HSL.
  destruct (dc_f0 f D) as (f0' & F0' & Ef').
  assert (Ef : f = set_syms f0 (f_syms f0 ++ [mkSym "{default}" KNonTerm None None 1 None 0])).
  { unfold symbol_new in Hf. cbn [String.eqb] in Hf. destruct (position _ _) as [j|] eqn:Ep.
    - exfalso. change (if ("{default}" =? "")%string then None else position (fun s : symbol => (sy_name s =? "{default}")%string) (f_syms f0)) with
        (position (fun s : symbol => (sy_name s =? "{default}")%string) (f_syms f0)) in Ep.
      apply position_some in Ep as (s & Hs & Es & _). apply String.eqb_eq in Es. apply nth_error_In in Hs.
      apply (fi_tail f0 (ai_fi _ _ _ _ _ (di_ai _ _ DD)) (sy_name s)); auto. unfold names. now apply in_map.
    - cbn [gbind] in Hf. destruct (f_rules _); [discriminate|]. now injection Hf as <-. }
  exists (gopts ord f). pose proof (normalize_rules_spec _ _ H1) as (K1 & K2 & K3 & K4 & K5 & K6 & K7 & K8).
  apply (lift_declared ord ds f0 f g0); auto; [now splits|eapply decls_anon; eauto|eapply decls_opt; eauto|].
  destruct (type_of ds "$") as [ty|] eqn:Et; auto. exfalso. apply first_of_in in Et as (d & Hin & E). destruct d as [| | | | |nat0 id [ty'|]| | | | | | | | | | | | | |]; try discriminate.
  destruct (String.eqb_spec "$" id) as [<-|]; [|discriminate]. destruct (gfold_each _ _ _ _ Hd _ Hin) as (s1 & s2 & HX). discriminate.
Qed.

Theorem build_declared fuel ord ds b : hash_order ord -> build fuel ord ds = GOk b -> exists opts, declared ds (bt_grammar b) opts.
Proof.
  intros Ho H. apply build_inv in H as (f & Hf & R). destruct (rn_prep _ _ _ _ R) as (g0 & H0 & H1). eapply front_declared; eauto.
Qed.
