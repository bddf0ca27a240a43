(** The grammars made from the same declarations differ only in the order of the rules added for
    optional symbols (C31, C38). *)
From Verif Require Import Base Syntax BaseFacts FrontEnd First States Actions Tables Spec WfGrammar FrontFacts BuildFacts DeclSpec DeclFacts GramFacts FaultSpec Reorder.
From Coq Require Import Sorting.Permutation.

(** ** Renaming the positions of a list *)
Lemma perm_renames {A} (l1 l2 : list A) : Permutation l1 l2 -> exists phi psi : nat -> nat,
  (forall i, nth_error l2 i = nth_error l1 (phi i)) /\ (forall i, nth_error l1 i = nth_error l2 (psi i)) /\ (forall i, phi (psi i) = i) /\ (forall i, psi (phi i) = i).
Proof.
  induction 1 as [|x l l' H (phi & psi & A1 & A2 & A3 & A4)|x y l|l l' l'' H (phi & psi & A1 & A2 & A3 & A4) H' (phi' & psi' & B1 & B2 & B3 & B4)].
  - exists (fun i => i), (fun i => i). auto.
  - exists (fun i => match i with 0 => 0 | S i => S (phi i) end), (fun i => match i with 0 => 0 | S i => S (psi i) end). splits; intros [|i]; cbn; auto.
  - exists (fun i => match i with 0 => 1 | 1 => 0 | _ => i end), (fun i => match i with 0 => 1 | 1 => 0 | _ => i end). splits; intros [|[|i]]; cbn; auto.
  - exists (fun i => phi (phi' i)), (fun i => psi' (psi i)). splits; intros i.
    + now rewrite B1, A1.
    + now rewrite A2, B2.
    + now rewrite B3, A3.
    + now rewrite A4, B4.
Qed.
Lemma perm_behind {A} (l0 l1 l2 : list A) : Permutation l1 l2 -> exists phi psi : nat -> nat,
  (forall i, nth_error (l0 ++ l2) i = nth_error (l0 ++ l1) (phi i)) /\ (forall i, nth_error (l0 ++ l1) i = nth_error (l0 ++ l2) (psi i)) /\ (forall i, phi (psi i) = i) /\ (forall i, psi (phi i) = i) /\
  (forall i, i < List.length l0 -> phi i = i) /\ (forall i, i < List.length l0 -> psi i = i).
Proof.
  intros H. apply perm_renames in H as (phi & psi & A1 & A2 & A3 & A4). set (k := List.length l0).
  exists (fun i => if i <? k then i else k + phi (i - k)), (fun i => if i <? k then i else k + psi (i - k)).
  splits; intros i; destruct (Nat.ltb_spec i k) as [L|L]; try lia; auto.
  - now rewrite !nth_error_app1.
  - rewrite !nth_error_app2 by (fold k; lia). fold k. now rewrite A1, Nat.add_comm, Nat.add_sub.
  - now rewrite !nth_error_app1.
  - rewrite !nth_error_app2 by (fold k; lia). fold k. now rewrite A2, Nat.add_comm, Nat.add_sub.
  - destruct (Nat.ltb_spec i k); lia.
  - destruct (Nat.ltb_spec (k + psi (i - k)) k); [lia|]. replace (k + psi (i - k) - k) with (psi (i - k)) by lia. rewrite A3. lia.
  - destruct (Nat.ltb_spec i k); lia.
  - destruct (Nat.ltb_spec (k + phi (i - k)) k); [lia|]. replace (k + phi (i - k) - k) with (phi (i - k)) by lia. rewrite A4. lia.
Qed.

(** ** The types of the optional symbols *)
Definition opt_syms (opts : list (nat * nat)) (ss : list symbol) : list symbol :=
  fold_left (fun ss p => upd ss (snd p) (sym_set_type (Some (TyOption (or_unit (sy_type (nth (fst p) ss dummy_sym))))))) opts ss.
Lemma optional_rules_eq opts : forall f f', optional_rules f opts = GOk f' -> f' = set_rules (set_syms f (opt_syms opts (f_syms f))) (f_rules f ++ opt_rules_of opts).
Proof.
  unfold optional_rules. induction opts as [|[r l] opts IH]; intros f f' H; cbn [gfold] in H.
  - injection H as <-. cbn. rewrite app_nil_r. now destruct f.
  - apply gbind_ok in H as (f3 & H3 & H). apply gbind_ok in H3 as (f2 & H2 & H3). unfold create_rule in H2, H3.
    destruct (sy_kind (get_sym _ l)); try discriminate. injection H2 as <-. destruct (sy_kind (get_sym _ l)); try discriminate. injection H3 as <-.
    apply IH in H. rewrite H. unfold set_rules, set_syms. cbn. now rewrite <- !app_assoc.
Qed.
Lemma upd_swap {A} (l : list A) : forall i j h k, i <> j -> upd (upd l i h) j k = upd (upd l j k) i h.
Proof. induction l as [|a l IH]; intros [|i] [|j] h k Hne; cbn; auto; try lia. f_equal. apply IH. lia. Qed.
Lemma opt_syms_perm o1 o2 : Permutation o1 o2 -> NoDup (map snd o1) -> (forall r l, In (r, l) o1 -> ~ In r (map snd o1)) -> forall ss, opt_syms o1 ss = opt_syms o2 ss.
Proof.
  induction 1 as [|x l l' H IH|x y l|l l' l'' H IH H' IH']; intros ND HO ss; auto.
  - cbn. apply IH; [now inversion ND|]. intros a b Hin Hc. apply (HO a b); now right.
  - cbn. f_equal. inversion ND as [|? ? Hn _]; subst. assert (E1 : snd y <> snd x) by (intros E; apply Hn; left; auto).
    assert (E2 : fst y <> snd x). { destruct y as [a b]. intros E. apply (HO a b); [now left|]. cbn in *. auto. }
    assert (E3 : fst x <> snd y). { destruct x as [a b]. intros E. apply (HO a b); [right; now left|]. cbn in *. auto. }
    rewrite !nth_upd_other by auto. now apply upd_swap.
  - rewrite IH by auto. apply IH'.
    + eapply Permutation_NoDup; [|exact ND]. now apply Permutation_map.
    + intros a b Hin Hc. apply (HO a b); [eapply Permutation_in; [symmetry; exact H|auto]|]. eapply Permutation_in; [apply Permutation_map; symmetry; exact H|auto].
Qed.

Lemma opts_apart fuel ds f : new_from_decls fuel ds = GOk f -> NoDup (map snd (f_opt f)) /\ NoDup (map fst (f_opt f)) /\
  forall r l, In (r, l) (f_opt f) -> ~ In r (map snd (f_opt f)) /\ r < List.length (f_syms f).
Proof.
  intros Hf. pose proof (new_from_decls_spec _ _ _ Hf) as D. unfold new_from_decls in Hf. apply gbind_ok in Hf as (f0 & Hd & Hf). pose proof (decls_DI _ _ _ Hd) as DD.
  assert (Ef : f = set_syms f0 (f_syms f0 ++ [mkSym "{default}" KNonTerm None None 1 None 0])).
  { unfold symbol_new in Hf. cbn [String.eqb] in Hf. destruct (position _ _) as [j|] eqn:Ep.
    - exfalso. change (if ("{default}" =? "")%string then None else position (fun s : symbol => (sy_name s =? "{default}")%string) (f_syms f0)) with
        (position (fun s : symbol => (sy_name s =? "{default}")%string) (f_syms f0)) in Ep.
      apply position_some in Ep as (s & Hs & Es & _). apply String.eqb_eq in Es. apply nth_error_In in Hs.
      apply (fi_tail f0 (ai_fi _ _ _ _ _ (di_ai _ _ DD)) (sy_name s)); auto. unfold FrontFacts.names. now apply in_map.
    - cbn [gbind] in Hf. destruct (f_rules _); [discriminate|]. now injection Hf as <-. }
  pose proof (lf_nodup (fun l => l) ds f0 f DD Ef (fun l => Permutation_refl l)) as ND. cbn beta in ND. splits; auto.
  - rewrite Ef. cbn. apply fi_optn. apply (ai_fi _ _ _ _ _ (di_ai _ _ DD)).
  - intros r l Hin. pose proof (lf_fopt (fun l => l) ds f0 f DD Ef (fun l => Permutation_refl l)) as HF. cbn beta in HF. destruct (HF r l Hin) as (k & x & Hr & Hx & Hl). split.
    + intros Hc. apply in_map_iff in Hc as ([r' l'] & E & Hin'). cbn in E. subst l'. destruct (HF r' r Hin') as (k' & _ & _ & _ & Hk). unfold name_at in *. assert (x = optional_name k') by congruence. subst x.
      destruct Hx as [Hx|Hx]; [eapply upper_not_lowish; [exact Hx|right; eauto]|discriminate].
    + rewrite Ef. cbn. rewrite app_length. unfold name_at in Hr. assert (r < List.length (FrontFacts.names f0)) by (apply nth_error_Some; congruence). unfold FrontFacts.names in *. rewrite map_length in *. lia.
Qed.

(** The rule [normalize_rules] makes of a rule *)
Definition made_of (g0 : grammar) (r : rule) : rule :=
  match normalize_rule (find_rule_precedences g0) (mkRule (r_lhs r) (r_rhs r) (r_code r) (r_precsym r) (rule_precedence g0 r)) with GOk r' => r' | _ => r end.
Lemma forall2_map_fun {S T} (h : S -> T) (P : S -> T -> Prop) l m : Forall2 P l m -> (forall a b, P a b -> b = h a) -> m = map h l.
Proof. induction 1; intros HP; cbn; auto. f_equal; auto. Qed.
Lemma normalized g0 g : normalize_rules (find_rule_precedences g0) = GOk g -> g_rules g = map (made_of g0) (g_rules g0).
Proof.
  intros H. apply normalize_rules_spec in H as (_ & _ & _ & _ & _ & _ & _ & HF). cbn [g_rules find_rule_precedences] in HF. apply f2_map_l in HF. eapply forall2_map_fun; [exact HF|].
  intros a b E. unfold made_of. cbn beta in E. now rewrite E.
Qed.
Lemma first_some_ext {A B} (h k : A -> option B) l : (forall a, h a = k a) -> first_some h l = first_some k l.
Proof. intros E. induction l as [|a l IH]; cbn; auto. rewrite E. destruct (k a); auto. Qed.
Lemma made_same g0 g1 r : g_syms g1 = g_syms g0 -> made_of g1 r = made_of g0 r.
Proof.
  intros E. assert (EG : forall s, gsym g1 s = gsym g0 s) by (intros s; unfold gsym; now rewrite E). assert (ER : forall s, rhs_sym_prec g1 s = rhs_sym_prec g0 s).
  { intros s. unfold rhs_sym_prec. rewrite EG. destruct (sy_kind _); auto. apply first_some_ext. intros a. now rewrite EG. }
  assert (EP : rule_precedence g1 r = rule_precedence g0 r).
  { unfold rule_precedence. destruct (r_precsym r); [now rewrite EG|]. apply first_some_ext. intros a. apply ER. }
  assert (EH : forall s, has_type (find_rule_precedences g1) s = has_type (find_rule_precedences g0) s) by (intros s; unfold has_type, gsym; cbn; now rewrite E).
  unfold made_of, normalize_rule. cbn [r_code r_lhs r_rhs r_precsym r_prec]. rewrite EP, EH. destruct (r_code r); auto. rewrite (filter_ext _ (fun p => has_type (find_rule_precedences g0) (fst p))) by auto.
  destruct (has_type _ _); auto. destruct (_ && _); auto. f_equal. apply map_ext. intros a. now rewrite EH.
Qed.

Lemma tail_once (h : rule -> rule) (ix : nat -> nat) o : (forall l, h (mkRule l [] COptNone None None) = mkRule l [] COptNone None None) ->
  (forall a l, exists p, h (mkRule l [(a, true)] COptSome None None) = mkRule l [(a, true)] COptSome None p) -> NoDup (map (fun p => ix (fst p)) o) ->
  forall i j ru qu X al bl, nth_error (map h (map (ren_rule ix) (opt_rules_of o))) i = Some ru -> nth_error (map h (map (ren_rule ix) (opt_rules_of o))) j = Some qu ->
  r_rhs ru = [(X, al)] -> r_rhs qu = [(X, bl)] -> i = j.
Proof.
  intros H1 H2 ND. assert (HL : forall o i ru X al, nth_error (map h (map (ren_rule ix) (opt_rules_of o))) i = Some ru -> r_rhs ru = [(X, al)] -> In X (map (fun p => ix (fst p)) o)).
  { clear o ND. induction o as [|[a b] o IH]; intros i ru X al Hi E; cbn in Hi; [destruct i; discriminate|]. destruct i as [|[|i]]; cbn in Hi.
    - injection Hi as <-. unfold ren_rule in E. cbn in E. rewrite H1 in E. discriminate.
    - injection Hi as <-. unfold ren_rule in E. cbn in E. destruct (H2 (ix a) (ix b)) as [p Hp]. rewrite Hp in E. cbn in E. left. cbn. congruence.
    - right. eapply IH; eauto. }
  induction o as [|[a b] o IH]; intros i j ru qu X al bl Hi Hj E1 E2; cbn in Hi, Hj; [destruct i; discriminate|]. cbn in ND. inversion ND as [|? ? Hn ND']; subst.
  destruct (H2 (ix a) (ix b)) as [p Hp]. destruct i as [|[|i]], j as [|[|j]]; auto; cbn in Hi, Hj;
    try (injection Hi as <-; unfold ren_rule in E1; cbn in E1; rewrite H1 in E1; discriminate); try (injection Hj as <-; unfold ren_rule in E2; cbn in E2; rewrite H1 in E2; discriminate).
  - injection Hi as <-. unfold ren_rule in E1. cbn in E1. rewrite Hp in E1. cbn in E1. injection E1 as <- _. exfalso. apply Hn. eapply HL; eauto.
  - injection Hj as <-. unfold ren_rule in E2. cbn in E2. rewrite Hp in E2. cbn in E2. injection E2 as <- _. exfalso. apply Hn. eapply HL; eauto.
  - do 2 f_equal. eapply IH; eauto.
Qed.

Theorem front_reord ds ord1 ord2 fuel f g01 g02 g1 g2 : hash_order ord1 -> hash_order ord2 -> new_from_decls fuel ds = GOk f ->
  prepare ord1 f = GOk g01 -> normalize_rules (find_rule_precedences g01) = GOk g1 ->
  prepare ord2 f = GOk g02 -> normalize_rules (find_rule_precedences g02) = GOk g2 -> exists phi psi, reord (List.length (f_rules f)) g1 g2 phi psi.
Proof.
  intros O1 O2 Hf P1 N1 P2 N2. destruct (opts_apart _ _ _ Hf) as (ND & NF & HO).
  pose proof (normalized _ _ N1) as R1. pose proof (normalized _ _ N2) as R2. pose proof (normalize_rules_spec _ _ N1) as (A1 & A2 & A3 & A4 & A5 & A6 & A7 & _). pose proof (normalize_rules_spec _ _ N2) as (B1 & B2 & B3 & B4 & B5 & B6 & B7 & _).
  unfold prepare in P1, P2. fold (order f) in P1, P2. set (nt := S _) in *. set (f1 := extra_token_type f (order f) nt) in *.
  destruct (extra_token_shape f (order f) nt) as [SH SR]. fold f1 in SH, SR. assert (EO : f_opt f1 = f_opt f) by apply SH.
  apply gbind_ok in P1 as (f21 & P1 & E1). apply gbind_ok in P2 as (f22 & P2 & E2). apply optional_rules_eq in P1, P2. rewrite EO in P1, P2.
  assert (PM : Permutation (ord1 (f_opt f)) (ord2 (f_opt f))) by (etransitivity; [apply O1|symmetry; apply O2]).
  assert (EQ : opt_syms (ord1 (f_opt f)) (f_syms f1) = opt_syms (ord2 (f_opt f)) (f_syms f1)).
  { apply opt_syms_perm; auto.
    - eapply Permutation_NoDup; [|exact ND]. apply Permutation_map. symmetry. apply O1.
    - intros r l Hin Hc. apply (HO r l); [eapply Permutation_in; [apply O1|auto]|]. eapply Permutation_in; [apply Permutation_map, O1|auto]. }
  injection E1 as <-. injection E2 as <-. cbn [g_syms g_rules g_nterm g_dflt g_start g_error g_wild g_fe find_rule_precedences] in *.
  assert (ES : f_syms f22 = f_syms f21) by (rewrite P1, P2; cbn; congruence).
  assert (EG : forall id, get_sym f22 id = get_sym f21 id) by (intros id; unfold get_sym; now rewrite ES).
  assert (EW : f_wild f22 = f_wild f21) by (now rewrite P1, P2).
  rewrite P1 in R1. rewrite P2 in R2. cbn [f_rules set_rules] in R1, R2. rewrite !map_app in R1, R2.
  match type of R1 with context [made_of ?x] => set (g01 := x) in R1 end. match type of R2 with context [made_of ?x] => set (g02 := x) in R2 end.
  assert (EM : forall r, made_of g02 r = made_of g01 r) by (intros r; apply made_same; unfold g01, g02; cbn; apply map_ext; intros id; unfold get_sym; cbn; now rewrite EQ).
  rewrite !(map_ext _ _ EM) in R2. rewrite SR in R1, R2. set (ix := index_of (order f)) in *. set (l0 := map (made_of g01) (map (ren_rule ix) (f_rules f))) in *.
  assert (PT : Permutation (map (made_of g01) (map (ren_rule ix) (opt_rules_of (ord1 (f_opt f))))) (map (made_of g01) (map (ren_rule ix) (opt_rules_of (ord2 (f_opt f)))))).
  { apply Permutation_map, Permutation_map. unfold opt_rules_of. now apply Permutation_flat_map. }
  assert (HL : List.length (f_rules f) = List.length l0) by (unfold l0; now rewrite !map_length).
  assert (M1 : forall l, made_of g01 (mkRule l [] COptNone None None) = mkRule l [] COptNone None None) by reflexivity.
  assert (M2 : forall a l, exists p, made_of g01 (mkRule l [(a, true)] COptSome None None) = mkRule l [(a, true)] COptSome None p) by (intros a l; eexists; reflexivity).
  destruct (perm_behind l0 _ _ PT) as (phi & psi & Q1 & Q2 & Q3 & Q4 & Q5 & Q6). exists phi, psi. constructor; auto; try congruence.
  - rewrite A1, B1. apply map_ext. intros id. now rewrite EG.
  - rewrite A7, B7, P1, P2. unfold set_rules, set_syms. cbn. now rewrite EQ.
  - rewrite R1, R2, !app_length. f_equal. now rewrite (Permutation_length PT).
  - intros r Hr. apply Q5. lia.
  - intros r Hr. apply Q6. lia.
  - intros r ru Lr Hr. rewrite R1, nth_error_app2 in Hr by lia. apply nth_error_In in Hr. rewrite map_map in Hr. apply in_map_iff in Hr as (x & <- & Hx). apply in_flat_map in Hx as ([a b] & _ & [<-|[<-|[]]]); unfold ren_rule; cbn [r_lhs r_rhs r_code r_precsym r_prec map option_map fst snd].
    + left. rewrite M1. auto.
    + right. destruct (M2 (ix a) (ix b)) as [p ->]. eexists _, _. reflexivity.
  - intros r q ru qu X al bl Lr Lq Hr Hq E1 E2. rewrite R1, nth_error_app2 in Hr, Hq by lia. enough (r - List.length l0 = q - List.length l0) by lia.
    eapply (tail_once (made_of g01) ix (ord1 (f_opt f))); eauto. rewrite <- (map_map fst ix). apply nodup_map_into.
    + intros a b Ha Hb E. assert (HN : forall c, In c (map fst (ord1 (f_opt f))) -> c < List.length (f_syms f)).
      { intros c Hc. apply in_map_iff in Hc as ([c' d] & <- & Hc). apply (HO c' d). eapply Permutation_in; [apply O1|auto]. }
      pose proof (index_of_nth f a (HN _ Ha)) as I1. pose proof (index_of_nth f b (HN _ Hb)) as I2. fold ix in I1, I2. congruence.
    + eapply Permutation_NoDup; [|exact NF]. apply Permutation_map. symmetry. apply O1.
Qed.
