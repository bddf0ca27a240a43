(** The Token enum in terms of the declarations (C43). *)
From Coq Require Import Eqdep_dec.
From Verif Require Import Base Syntax BaseFacts FrontEnd First States Actions Tables Runtime User Spec WfGrammar FirstFacts ClosureFacts AutoFacts LalrFacts ActFacts CompFacts TabFacts LookFacts PipeFacts RunFacts FrontFacts
  SoundFacts SafeFacts BuildFacts DeclSpec DeclFacts GramFacts LangFacts TypeFacts MeanSpec TypeDecl Main Claims2 DeclMore Claims3 Names Claims6 TokenText.
Open Scope string_scope. Open Scope nat_scope. Open Scope list_scope.

Lemma access_whole named et : exists get set, access named et AWhole et = Some (get, set) /\ (forall e, get e = e) /\ (forall e e', set e e' = e').
Proof.
  cbn. destruct (ty_dec et et) as [H|H]; [|congruence]. rewrite (UIP_dec ty_dec H eq_refl). cbn. eexists _, _. split; [reflexivity|]. auto.
Qed.
Lemma access_first named et T : exists get set, access named et AFirst (TyPair et T) = Some (get, set) /\
  (forall e (v : values named T), get (e, v) = e) /\ (forall e e' (v : values named T), set (e, v) e' = (e', v)).
Proof.
  cbn. destruct (ty_dec et et) as [H|H]; [|congruence]. rewrite (UIP_dec ty_dec H eq_refl). cbn. eexists _, _. split; [reflexivity|]. auto.
Qed.
Lemma pair_not_self et T : TyPair et T <> et.
Proof. revert T. induction et as [s| |a IHa c IHb|a IHa]; intros T H; try discriminate. injection H as Ha _. now apply (IHa c). Qed.

Lemma extra_shape f order n opts f' : optional_rules (extra_token_type f order n) opts = GOk f' -> f_extra_token f' = f_extra_token f.
Proof.
  assert (H1 : f_extra_token (extra_token_type f order n) = f_extra_token f).
  { unfold extra_token_type. destruct (f_extra_token f) as [et|] eqn:E; auto. generalize (seq 1 (n - 1)). intros l. revert f E. induction l as [|i l IH]; intros f E; cbn [fold_left]; auto. }
  rewrite <- H1. generalize (extra_token_type f order n). clear. unfold optional_rules. intros f H. revert f f' H. induction opts as [|[r l] opts IH]; intros f f' H; cbn [gfold] in H.
  - now injection H as <-.
  - apply gbind_ok in H as (f3 & H3 & H). apply gbind_ok in H3 as (f2 & H2 & H3). unfold create_rule in H2, H3.
    destruct (sy_kind (get_sym _ l)); try discriminate. injection H2 as <-. destruct (sy_kind (get_sym _ l)); try discriminate. injection H3 as <-.
    apply IH in H. exact H.
Qed.

Section Enum.
Context (ds : list decl) (b : built) (EX : expands ds b) (FD : flat_decls ds).
Notation g := (bt_grammar b).
Let W := ex_wf ds b EX.

Lemma enum_made : exists m syms dts, type_symbols g = GOk (m, syms, dts) /\ tinv g (List.length (g_syms g)) m syms dts /\ (forall w, g_wild g = Some w -> has_type g w = false) /\
  token_enum g = GOk (map (fun i => variant_of g (nth i syms dummy_sym)) (seq 1 (g_nterm g - 1))).
Proof.
  destruct (ex_ran ds b EX) as (fuel & ord & f & _ & _ & R). pose proof (rn_tables _ _ _ _ R) as G. apply generate_source_inv in G as (k & m & syms & dts & G).
  exists m, syms, dts. assert (HT : type_symbols g = GOk (m, syms, dts)) by apply G. splits; auto; try apply G.
  - apply type_symbols_inv; auto using (ex_flat ds b EX FD). apply G.
  - unfold token_enum. now rewrite HT.
Qed.

Lemma ex_extra : f_extra_token (g_fe g) = extra_token_of ds.
Proof.
  destruct (ex_front ds b EX) as (fuel & f0 & f & ord & H0 & _ & Ef & [(g0 & Hp & Hn) _ _ _ _ _]). pose proof (di_et _ _ (decls_DI _ _ _ H0)) as HE. rewrite <- HE.
  unfold normalize_rules in Hn. apply gbind_ok in Hn as (rs & _ & Hn).
  injection Hn as Hn. rewrite <- Hn. cbn [g_fe find_rule_precedences].
  unfold prepare in Hp. apply gbind_ok in Hp as (f2 & H2 & Hp). injection Hp as <-. cbn [g_fe]. rewrite (extra_shape _ _ _ _ _ H2), Ef. reflexivity.
Qed.

(** The type of the field of a token, as the documentation has it *)
Definition token_type (n : ident) : option ty :=
  match extra_token_of ds with
  | Some et => Some match type_of ds n with None => et | Some T => TyPair et T end
  | None => if is_wild ds n then None else match type_of ds n with Some T => Some T | None => default_type_of ds end
  end.

Lemma tok_at i : 0 < i < g_nterm g -> at_name g i (gname g i) /\ upper (gname g i) /\ class_of ds (gname g i) = None /\ dtype g i = token_type (gname g i).
Proof.
  intros Hi. destruct (ex_decl ds b EX) as (opts & DE). destruct (term_name ds g opts DE W i Hi) as (A & U & C). splits; auto.
  rewrite (dtype_name ds g opts DE W _ _ A) by auto. unfold name_type, token_type, own_of. rewrite C.
  assert (HR : raw_type ds (gname g i) = match extra_token_of ds with Some et => Some match type_of ds (gname g i) with None => et | Some T => TyPair et T end | None => type_of ds (gname g i) end).
  { unfold raw_type. rewrite C, U. destruct (extra_token_of ds); auto. now destruct (type_of ds (gname g i)). }
  rewrite HR. destruct (is_wild ds (gname g i)) eqn:Ew.
  - destruct (extra_token_of ds) as [et|]; auto. exfalso. destruct enum_made as (_ & _ & _ & _ & _ & HW & _).
    rewrite <- (wild_name ds g opts DE i _ A (upper_nonempty _ U)) in Ew. apply wild_iff in Ew. specialize (HW _ Ew). unfold has_type in HW. rewrite (de_type _ _ _ DE _ _ A (or_introl U)), HR in HW. discriminate.
  - destruct (extra_token_of ds); [reflexivity|]. now destruct (type_of ds (gname g i)).
Qed.

(** C43 *)
Theorem token_variants : exists vs, token_enum g = GOk vs /\ NoDup (map va_name vs) /\
  (forall n, In n (map va_name vs) <-> upper n /\ class_of ds n = None /\ mentions ds n) /\
  (forall v, In v vs -> va_field v = token_type (va_name v)).
Proof.
  destruct enum_made as (m & syms & dts & _ & I & _ & HE). pose proof (wg_dflt_range g W) as Nd. eexists. splits; [exact HE| | |].
  - rewrite map_map. assert (HN : map (fun i => va_name (variant_of g (nth i syms dummy_sym))) (seq 1 (g_nterm g - 1)) = map (gname g) (seq 1 (g_nterm g - 1))).
    { apply map_ext. intros i. cbn. destruct (ti_kind _ _ _ _ _ I i) as (_ & E & _). exact E. }
    rewrite HN. destruct (symbols_numbered ds b EX) as (HU & _). assert (HT : forall i, In i (seq 1 (g_nterm g - 1)) -> 0 < i < g_nterm g) by (intros i Hi; apply in_seq in Hi; lia).
    revert HT. pose proof (seq_NoDup (g_nterm g - 1) 1) as ND. revert ND. generalize (seq 1 (g_nterm g - 1)) as l. induction l as [|i l IH]; intros ND HT; [constructor|]. cbn. inversion ND as [|? ? Hni ND']; subst. constructor; [|apply IH; auto; intros; apply HT; now right].
    intros Hin. apply in_map_iff in Hin as (j & Ej & Hj). apply Hni. replace i with j; auto. destruct (tok_at i (HT i (or_introl eq_refl))) as (Ai & Ui & _), (tok_at j (HT j (or_intror Hj))) as (Aj & _). apply (HU j i (gname g i)); auto; [now rewrite <- Ej|now apply upper_nonempty].
  - intros n. rewrite map_map, in_map_iff. destruct (symbols_numbered ds b EX) as (HU & _ & HT & _). split.
    + intros (i & En & Hi). apply in_seq in Hi. cbn in En. destruct (ti_kind _ _ _ _ _ I i) as (_ & E & _). assert (Li : 0 < i < g_nterm g) by lia. destruct (tok_at i Li) as (A & U & C & _).
      assert (gname g i = n) by (rewrite <- En, E; reflexivity). subst n. rewrite H in *. splits; auto. apply HT; auto. eauto.
    + intros (U & C & Hm). apply HT in Hm as (i & Li & A); auto. exists i. split; [|apply in_seq; lia]. cbn. destruct (ti_kind _ _ _ _ _ I i) as (_ & -> & _). now apply at_gname in A.
  - intros v Hv. apply in_map_iff in Hv as (i & <- & Hi). apply in_seq in Hi. assert (Li : 0 < i < g_nterm g) by lia. destruct (tok_at i Li) as (A & U & C & D). cbn.
    destruct (ti_kind _ _ _ _ _ I i) as (_ & E & _). rewrite (ti_done _ _ _ _ _ I) by lia. rewrite D, E. reflexivity.
Qed.

Theorem token_extra named et vs v : extra_token_of ds = Some et -> token_enum g = GOk vs -> In v vs ->
  (type_of ds (va_name v) = None /\ va_field v = Some et /\
   exists a get set, va_arm v = Some a /\ access named et a et = Some (get, set) /\ (forall e, get e = e) /\ (forall e e', set e e' = e')) \/
  (exists T, type_of ds (va_name v) = Some T /\ va_field v = Some (TyPair et T) /\
   exists a get set, va_arm v = Some a /\ access named et a (TyPair et T) = Some (get, set) /\
     (forall (e : values named et) (x : values named T), get (e, x) = e) /\ (forall (e e' : values named et) (x : values named T), set (e, x) e' = (e', x))).
Proof.
  intros He Hvs Hv. destruct token_variants as (vs' & H1 & _ & _ & HF). assert (vs' = vs) by congruence. subst vs'. specialize (HF v Hv). unfold token_type in HF. rewrite He in HF.
  assert (HA : va_arm v = match va_field v with Some dt => Some (if ty_eqb dt et then AWhole else AFirst) | None => None end).
  { destruct enum_made as (m & syms & dts & _ & _ & _ & HE). assert (Hv' : In v (map (fun i => variant_of g (nth i syms dummy_sym)) (seq 1 (g_nterm g - 1)))) by congruence.
    apply in_map_iff in Hv' as (i & <- & _). cbn. rewrite ex_extra, He. reflexivity. }
  rewrite HF in HA. destruct (type_of ds (va_name v)) as [T|]; [right; exists T|left]; splits; auto.
  - destruct (access_first named et T) as (get & set & H2 & H3). exists AFirst, get, set. splits; try tauto. rewrite HA. destruct (ty_eqb (TyPair et T) et) eqn:Eq; auto. apply ty_eqb_ok in Eq. now apply pair_not_self in Eq.
  - destruct (access_whole named et) as (get & set & H2 & H3). exists AWhole, get, set. splits; try tauto. rewrite HA. now rewrite ty_eqb_refl.
Qed.

(** Non-terminals keep their type. *)
Theorem nonterm_types : exists m syms dts, type_symbols g = GOk (m, syms, dts) /\
  forall i n, at_name g i n -> lower n -> sy_type (nth i syms dummy_sym) = match type_of ds n with Some T => Some T | None => default_type_of ds end.
Proof.
  destruct enum_made as (m & syms & dts & HT & I & _). exists m, syms, dts. split; auto. intros i n A L. destruct (ex_decl ds b EX) as (opts & DE).
  assert (Li : i < List.length (g_syms g)) by (eapply at_lt; eauto). rewrite (ti_done _ _ _ _ _ I) by auto. rewrite (dtype_name ds g opts DE W _ _ A) by auto.
  assert (Hne : n <> "") by now apply lower_nonempty. assert (HK : sy_kind (gsym g i) = KNonTerm).
  { assert (EN : sy_name (gsym g i) = n) by now apply at_gname in A. destruct (nth_error (g_syms g) i) as [s|] eqn:Es; [|apply nth_error_None in Es; lia]. assert (Eg : gsym g i = s) by (unfold gsym; now apply nth_error_nth). rewrite Eg in *.
    assert (Hne' : sy_name s <> "") by congruence. destruct (de_named _ _ _ DE i s Es Hne') as [(_ & E & _)|[(U & _)|[(_ & K)|[(_ & K)|(_ & _ & K)]]]]; auto; exfalso.
    - rewrite <- EN, E in L. discriminate.
    - rewrite EN in U. exact (upper_lower n U L). }
  assert (HC : class_of ds n = None).
  { destruct (sym_decl _ _ _ DE _ _ A Hne) as (_ & _ & E). rewrite HK in E. now cbn in E. }
  assert (HX : is_wild ds n = false).
  { destruct (is_wild ds n) eqn:E; auto. rewrite <- (wild_name ds g opts DE i n A Hne) in E. apply wild_iff in E. destruct (wg_wild g W _ E) as (_ & _ & H). exfalso. apply H. rewrite gsym_kind_at by auto. now rewrite HK. }
  unfold name_type. rewrite HX, HC. unfold own_of. rewrite HX. unfold raw_type. rewrite HC. destruct (extra_token_of ds); [|now destruct (type_of ds n)]. assert (HU : is_terminal_ident n = false) by (destruct (is_terminal_ident n) eqn:E; auto; exfalso; exact (upper_lower n E L)). rewrite HU. now destruct (type_of ds n).
Qed.
End Enum.
