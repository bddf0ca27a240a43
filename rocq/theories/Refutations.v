(** Witnesses that some of the properties, as a user would state them, do not hold of
    the code.  Every witness is a concrete grammar; the model is run on it. *)
From Coq Require Import DecimalString.
From Verif Require Import Base Syntax FrontEnd First States Actions Tables Runtime User Spec Demo.
Open Scope string_scope. Open Scope nat_scope. Open Scope list_scope.

Definition get (x : gres built) : built :=
  match x with
  | GOk b => b
  | _ => mkBuilt (mkGr [] [] 0 0 0 0 None fe_init) (mkFirsts [] []) (mkPst [] []) (mkPst [] [])
           (mkPst [] []) (mkTables 0 0 0 0 0 0 [] [] [] 0 0 [] 0 0 [] [] [] 0 [] [] None [])
  end.
Definition is_gok {A} (x : gres A) : bool := match x with GOk _ => true | _ => false end.

Lemma get_ok x : is_gok x = true -> x = GOk (get x).
Proof. destruct x; simpl; congruence. Qed.

(** ** a. Two colliding action sets in the packed table (mod.rs 417: the search for a
    hole stops one position too early).  The grammar

      %type M;  input ::= x;  input ::= y M;  x ::= A;  y ::= B;

    has the two sentences [A] and [B M]; the parser also accepts [A M]. *)
Definition col_ds : list decl :=
  [DType 0 "M" None; rl "input" ["x"] 1; rl "input" ["y"; "M"] 2; rl "x" ["A"] 3; rl "y" ["B"] 4].
Definition col := Eval vm_compute in get (build 300 ida col_ds).
(** M = 1, A = 2, B = 3 *)
Example col_names : map sy_name (g_syms (bt_grammar col))
  = ["$"; "M"; "A"; "B"; "error"; "input"; "x"; "y"; "{default}"].
Proof. vm_compute. reflexivity. Qed.

Lemma col_kinds X s : nth_error (g_syms (bt_grammar col)) X = Some s ->
  sy_kind s = (if X <? 4 then KTerm else KNonTerm) /\ sy_fb s = None.
Proof.
  assert (H : forallb (fun X => match nth_error (g_syms (bt_grammar col)) X with
     | Some s => match sy_kind s, X <? 4 with KTerm, true => true | KNonTerm, false => true | _, _ => false end
                 && match sy_fb s with None => true | _ => false end
     | None => true end) (seq 0 9) = true) by (vm_compute; reflexivity).
  intros HX. assert (HL : X < 9).
  { change 9 with (List.length (g_syms (bt_grammar col))). apply nth_error_Some. congruence. }
  rewrite forallb_forall in H. specialize (H X). rewrite HX in H.
  assert (In X (seq 0 9)) as Hin by (apply in_seq; lia). specialize (H Hin).
  apply andb_true_iff in H as [H1 H2].
  destruct (sy_fb s); [discriminate|]. split; auto.
  destruct (sy_kind s), (X <? 4); auto; discriminate.
Qed.

Lemma col_match a X : tok_match (bt_grammar col) a X -> X = a /\ a < 4.
Proof.
  assert (Hmem : forall a X, member (bt_grammar col) a X -> X = a /\ a < 4).
  { intros b Y [[-> Hk]|(ms & Hk & _)]; unfold is_term, kind_at in Hk;
      destruct (nth_error (g_syms (bt_grammar col)) _) as [s|] eqn:E; try discriminate;
      apply col_kinds in E as [E _]; simpl in Hk; rewrite E in Hk.
    - split; auto. destruct (Nat.ltb_spec b 4); auto; discriminate.
    - destruct (Y <? 4); discriminate. }
  intros [(b & Hf & Hm)|(w & Hw & _)].
  - apply Hmem in Hm as [-> Hb].
    induction Hf as [|b s c Hf IH Hs Hc]; auto.
    apply col_kinds in Hs as [_ Hs]. congruence.
  - vm_compute in Hw. discriminate.
Qed.

Ltac dinv :=
  repeat match goal with
  | H : tok_match _ _ _ |- _ => apply col_match in H; destruct H; try lia; subst
  | H : derives_all _ _ (_ :: _) _ |- _ => inversion H; subst; clear H
  | H : derives_all _ _ [] _ |- _ => inversion H; subst; clear H
  | H : derives_all _ _ _ _ |- _ => progress (cbv in H)
  end.

Lemma col_rules r ru : nth_error (g_rules (bt_grammar col)) r = Some ru ->
  (r_lhs ru = 5 /\ (map fst (r_rhs ru) = [6] \/ map fst (r_rhs ru) = [7; 1])) \/
  (r_lhs ru = 6 /\ map fst (r_rhs ru) = [2]) \/ (r_lhs ru = 7 /\ map fst (r_rhs ru) = [3]).
Proof.
  intros H. do 4 (destruct r as [|r]; [vm_compute in H; inversion H; subst ru; simpl; tauto|]).
  vm_compute in H. destruct r; discriminate.
Qed.

Lemma col_language {M} (t : tree M) ts : sentence (bt_grammar col) t ts ->
  map fst ts = [2] \/ map fst ts = [3; 1].
Proof.
  intros [Hd Hy]. subst ts.
  change (g_start (bt_grammar col)) with 5 in Hd.
  assert (Ht : forall X t, derives (bt_grammar col) (tok_match (bt_grammar col)) X t -> X < 4 ->
                map fst (@yield M t) = [X]).
  { intros X t' H HX. inversion H as [a m X' Hm|r ru ts Hr Hts]; subst; simpl.
    - apply col_match in Hm as [-> _]. reflexivity.
    - apply col_rules in Hr. lia. }
  assert (Hn : forall X t, derives (bt_grammar col) (tok_match (bt_grammar col)) X t ->
                X = 6 \/ X = 7 -> map fst (@yield M t) = [X - 4]).
  { intros X t' H HX. inversion H as [a m X' Hm|r ru ts Hr Hts]; subst; simpl.
    - apply col_match in Hm as [-> Hl]. lia.
    - apply col_rules in Hr as [[Hl _]|[[Hl Hr]|[Hl Hr]]]; [lia| |]; rewrite Hr in Hts; rewrite Hl;
        inversion Hts as [|? t1 ? ts1 H1 H2]; subst; inversion H2; subst; simpl;
        rewrite app_nil_r; rewrite (Ht _ _ H1) by lia; reflexivity. }
  inversion Hd as [a m X' Hm|r ru ts Hr Hts HX]; subst; simpl.
  - apply col_match in Hm as [Hm Hl]. lia.
  - apply col_rules in Hr as [[_ [Hr|Hr]]|[[Hl _]|[Hl _]]]; try lia; rewrite Hr in Hts.
    + inversion Hts as [|? t1 ? ts1 H1 H2]; subst; inversion H2; subst; simpl.
      rewrite app_nil_r, (Hn _ _ H1) by lia. auto.
    + inversion Hts as [|? t1 ? ts1 H1 H2]; subst; inversion H2 as [|? t2 ? ts2 H3 H4]; subst;
        inversion H4; subst; simpl.
      rewrite app_nil_r, map_app, (Hn _ _ H1), (Ht _ _ H3) by lia. auto.
Qed.

(** An accepted input that is no sentence. *)
Theorem soundness_refuted :
  exists ds b toks v x p,
    build 300 ida ds = GOk b
    /\ api_run 300 (bt_tables b) dsem [] toks = ROk (v, x) p
    /\ (forall e, In e (ps_log p) -> e = EvAccept \/ (exists a, e = EvShift a) \/ exists r, e = EvReduce r)
    /\ ~ exists t, sentence (bt_grammar b) t (map (token_value (bt_tables b) dsem) toks).
Proof.
  exists col_ds, col, [(2, None); (1, None)]. do 3 eexists. split; [|split; [|split]].
  - vm_compute. reflexivity.
  - vm_compute. reflexivity.
  - simpl. intros e He. repeat destruct He as [<-|He]; eauto. contradiction.
  - intros [t Ht]. apply col_language in Ht. vm_compute in Ht. destruct Ht as [Ht|Ht]; discriminate.
Qed.

(** The same defect makes the parser panic: [input ::= x; x ::= A;] on [A A]. *)
Definition pan_ds : list decl := [rl "input" ["x"] 1; rl "x" ["A"] 2].
Definition pan := Eval vm_compute in get (build 300 ida pan_ds).
Theorem panic_refuted :
  exists ds b toks, build 300 ida ds = GOk b
    /\ api_run 300 (bt_tables b) dsem [] toks = RPanic.
Proof.
  exists pan_ds, pan, [(1, None); (1, None)]. split.
  - vm_compute. reflexivity.
  - vm_compute. reflexivity.
Qed.

(** The table itself: the state after [x] has a single action, on end of input, but
    looking up [A] (symbol 1) in the packed table finds a shift. *)
Theorem packing_refuted :
  exists ds b s la,
    build 300 ida ds = GOk b /\ s < t_nstate (bt_tables b)
    /\ (forall a, In a (s_actions (pstate (bt_comp b) s)) -> a_la a <> la /\ a_la a <> g_dflt (bt_grammar b))
    /\ g_wild (bt_grammar b) = None /\ (forall i, sy_fb (gsym (bt_grammar b) i) = None)
    /\ exists n, n < t_nstate (bt_tables b) /\
       find_shift_action (bt_tables b) (state_num (bt_grammar b) (bt_comp b) s) la = LAct n.
Proof.
  exists pan_ds, pan, 1, 1.
  split; [vm_compute; reflexivity|].
  split; [vm_compute; lia|].
  split. { intros a Ha. vm_compute in Ha. destruct Ha as [<-|[]]. vm_compute. split; discriminate. }
  split; [vm_compute; reflexivity|].
  split. { intros i. do 7 (destruct i as [|i]; [vm_compute; reflexivity|]). vm_compute. destruct i; reflexivity. }
  exists 2. split; vm_compute; [lia|reflexivity].
Qed.

(** ** b. The element type of YY_REDUCE_OFST is chosen from the largest offset only
    (mod.rs 2446-2449, 2477): 130 more terminals push the first goto set to offset -133. *)
Definition many_tokens (n : nat) : list decl :=
  map (fun i => DType 0 (String "T" (NilEmpty.string_of_uint (Nat.to_uint i))) None) (seq 0 n).
Definition ofs_ds : list decl := (many_tokens 130 ++ pan_ds)%list.
Definition ofs := Eval vm_compute in get (build 300 ida ofs_ds).
Theorem offset_type_refuted :
  exists ds b, build 300 ida ds = GOk b
    /\ exists o, In o (t_reduce_ofst (bt_tables b))
         /\ (o < - 2 ^ (minimum_signed_bits (t_reduce_max (bt_tables b)) - 1))%Z.
Proof.
  exists ofs_ds, ofs.
  split; [vm_compute; reflexivity|].
  assert (E : existsb (fun o => (o <? - 2 ^ (minimum_signed_bits (t_reduce_max (bt_tables ofs)) - 1))%Z)
     (t_reduce_ofst (bt_tables ofs)) = true) by (vm_compute; reflexivity).
  apply existsb_exists in E as (o & Ho & E). exists o. split; auto. now apply Z.ltb_lt.
Qed.

(** ** c. A token class listing another class becomes a default shift:
    %token_class C A B;  %token_class D C E;  input ::= D F;  input ::= A A;
    the class member [B] is rejected. *)
Definition cls_ds : list decl :=
  [DTokenClass "C" ["A"; "B"]; DTokenClass "D" ["C"; "E"];
   rl "input" ["D"; "F"] 1; rl "input" ["A"; "A"] 2].
Definition cls := Eval vm_compute in get (build 300 ida cls_ds).
(** A = 1, B = 2, E = 3, F = 4 *)
Theorem nested_class_refuted :
  exists b, build 300 ida cls_ds = GOk b /\
    map sy_name (g_syms (bt_grammar b))
      = ["$"; "A"; "B"; "E"; "F"; "error"; "input"; "{default}"; "C"; "D"] /\
    demo dsem cls_ds [2; 4] = Fail_ 77 /\ demo dsem cls_ds [] = Panic_.
Proof.
  exists cls. split; [vm_compute; reflexivity|].
  repeat split; vm_compute; reflexivity.
Qed.

(** ** d. A token declared as its own fallback is accepted, and a second %fallback then
    sends the loop check itself into an infinite loop. *)
Definition self_fb : list decl := [DFallback "A" ["A"]].
Theorem self_fallback_refuted :
  exists f a s, new_from_decls 300 (self_fb ++ pan_ds) = GOk f
    /\ nth_error (f_syms f) a = Some s /\ sy_fb s = Some a.
Proof.
  eexists. exists 2. eexists. split; [vm_compute; reflexivity|]. split; vm_compute; reflexivity.
Qed.

Definition loop_ds : list decl := [DFallback "A" ["A"]; DFallback "A" ["B"]; rl "input" ["A"; "B"] 1].
Theorem expansion_loops_refuted : exists ds, forall fuel ord, build fuel ord ds = GFuel.
Proof.
  exists loop_ds. intros fuel ord. unfold build, loop_ds, new_from_decls.
  assert (H : forall n f syms, sy_fb (get_sym f 2) = Some 2 -> smem 2 syms = false ->
                fallback_check n f syms 2 = GFuel).
  { induction n as [|n IH]; intros f syms H1 H2; simpl; auto. rewrite H1, H2. auto. }
  destruct fuel as [|n]; [reflexivity|].
  cbn [gfold]. 
  set (f1 := parse_one_decl (S n) fe_init (DFallback "A" ["A"])).
  vm_compute in f1. subst f1. cbn [gbind].
  match goal with |- context [parse_one_decl (S n) ?f ?d] =>
    replace (parse_one_decl (S n) f d) with (@GFuel fe) end; [reflexivity|].
  symmetry. unfold parse_one_decl.
  match goal with |- (gbind ?x _) = _ => let y := eval vm_compute in x in change x with y end.
  cbn [gbind].
  change (is_terminal_ident "A") with true. cbv iota.
  match goal with |- (gbind ?x _) = _ => let y := eval vm_compute in x in change x with y end.
  cbn [gbind]. rewrite H; reflexivity.
Qed.

(** ** e. A %nonassoc tie is reduced instead of rejected when the state can also shift the
    wildcard: %nonassoc Eq;  %left Any;  %wildcard Any;
    input ::= e;  e ::= e Eq e;  e ::= e Any;  e ::= Num;   on  Num Eq Num Eq Num. *)
Definition na_ds : list decl :=
  [DAssoc ANone ["Eq"]; DAssoc ALeft ["Any"]; DWildcard "Any"; rl "input" ["e"] 1;
   rl "e" ["e"; "Eq"; "e"] 2; rl "e" ["e"; "Any"] 3; rl "e" ["Num"] 4].
Definition na := Eval vm_compute in get (build 300 ida na_ds).
(** Eq = 1, Num = 3 *)
Theorem nonassoc_refuted :
  exists b s, build 300 ida na_ds = GOk b
    /\ In (mkAct 1 Error) (s_actions (pstate (bt_acts b) s))
    /\ In (mkAct 1 (Reduce 1)) (s_actions (pstate (bt_acts b) s))
    /\ find_shift_action (bt_tables b) (state_num (bt_grammar b) (bt_comp b) s) 1
       = LAct (t_nstate (bt_tables b) + 1)
    /\ demo dsem na_ds [3; 1; 3; 1; 3] = Accept_ VUnit [4; 4; 2; 4; 2; 1].
Proof.
  set (b := na).
  exists b.
  exists 3. split; [vm_compute; reflexivity|].
  split; [vm_compute; tauto|]. split; [vm_compute; tauto|]. split; vm_compute; reflexivity.
Qed.

(** ** f. Two rules with the same %left precedence that reduce on the same token: no
    conflict is reported and the rule written later wins. *)
Definition rr_ds : list decl :=
  [DAssoc ALeft ["P"]; rl "input" ["a"] 1; rl "input" ["b"] 2; rp "a" ["A"] 3 "P"; rp "b" ["A"] 4 "P";
   rl "input" ["a"; "P"] 5].
Definition rr := Eval vm_compute in get (build 300 ida rr_ds).
Theorem reduce_reduce_refuted :
  exists b, build 300 ida rr_ds = GOk b
    /\ r_prec (grule (bt_grammar b) 2) = Some (1, ALeft)
    /\ r_prec (grule (bt_grammar b) 3) = Some (1, ALeft)
    /\ exists s, In (mkAct 0 (RDResolved 2)) (s_actions (pstate (bt_acts b) s))
              /\ In (mkAct 0 (Reduce 3)) (s_actions (pstate (bt_acts b) s)).
Proof.
  exists rr.
  split; [vm_compute; reflexivity|].
  do 2 (split; [vm_compute; reflexivity|]). exists 4. split; vm_compute; tauto.
Qed.

(** ** g. The wildcard overrides a token that has its own (default) reduction:
    input ::= a Any;  input ::= b X;  input ::= b Y;  a ::= A;  b ::= A;  on [A X]. *)
Definition wc_ds : list decl :=
  [DWildcard "Any"; rl "input" ["a"; "Any"] 1; rl "input" ["b"; "X"] 2; rl "input" ["b"; "Y"] 3;
   rl "a" ["A"] 4; rl "b" ["A"] 5].
Definition wc := Eval vm_compute in get (build 300 ida wc_ds).
(** Any = 1, X = 2, Y = 3, A = 4 *)
Theorem wildcard_refuted :
  exists b s, build 300 ida wc_ds = GOk b
    /\ In (mkAct 2 (Reduce 4)) (s_actions (pstate (bt_acts b) s))
    /\ In (mkAct 1 (Reduce 3)) (s_actions (pstate (bt_acts b) s))
    /\ find_shift_action (bt_tables b) (state_num (bt_grammar b) (bt_comp b) s) 2
       = LAct (t_nstate (bt_tables b) + 3)
    /\ demo dsem wc_ds [4; 2] = Accept_ VUnit [4; 1].
Proof.
  set (b := wc).
  exists b.
  exists 6. split; [vm_compute; reflexivity|].
  split; [vm_compute; tauto|]. split; [vm_compute; tauto|]. split; vm_compute; reflexivity.
Qed.

(** ** h. A cyclic grammar whose conflicts are resolved by precedence: reducing
    [x ::= x] goes on for ever. *)
Definition cyc_ds : list decl :=
  [DAssoc ALeft ["Q"]; DAssoc ALeft ["H"]; DAssoc ALeft ["P"]; rl "input" ["y"] 1;
   rl "y" ["A"; "x"; "P"] 2; rl "y" ["A"; "x"; "Q"] 3; rp "x" ["x"] 4 "H"; rl "x" ["B"] 5].
Definition cyc := Eval vm_compute in get (build 300 ida cyc_ds).
(** Q = 1, A = 4, B = 5 *)
Lemma cyc_loops : build 300 ida cyc_ds = GOk cyc
    /\ forall fuel, api_run fuel (bt_tables cyc) dsem [] [(4, None); (5, None); (1, None)] = RFuel.
Proof.
  split; [vm_compute; reflexivity|].
  set (t := bt_tables cyc).
  set (h := user_hooks t dsem).
  assert (Hs : forall n p, ps_status p = Normal ->
             map (fun e => (e_state e, e_major e, fst (e_minor e))) (ps_stack p)
               = [(2, 9, 0); (1, 4, 0); (0, 0, 0)] ->
             parse_token_2 n t h p 1 (0, VUnit) = RFuel).
  { induction n as [|n IH]; intros p Hst Hsk; [reflexivity|].
    destruct p as [cnt stk x st lg]. cbn [ps_status ps_stack] in Hst, Hsk. subst st.
    destruct stk as [|e1 [|e2 [|e3 [|e4 stk]]]]; try discriminate. simpl in Hsk.
    destruct e1 as [s1 m1 [d1 v1]], e2 as [s2 m2 [d2 v2]], e3 as [s3 m3 [d3 v3]].
    simpl in Hsk. inversion Hsk; subst. clear Hsk.
    cbn [parse_token_2 ps_status ps_stack e_state].
    replace (find_shift_action t 2 1) with (LAct 10) by (vm_compute; reflexivity).
    replace (t_nstate t) with 7 by (vm_compute; reflexivity).
    replace (t_nrule t) with 5 by (vm_compute; reflexivity).
    cbn [Nat.ltb Nat.leb Nat.add Nat.sub].
    unfold yy_reduce.
    replace (nth_error (t_rules t) 3) with (Some (mkRtRule 9 [(9, false, 0)] (CUser 4) 0))
      by (vm_compute; reflexivity).
    cbn [rr_rhs List.length pop_n ps_stack e_minor].
    unfold h at 1. cbn [h_reduce user_hooks]. unfold rule_reduce.
    replace (nth 3 (t_rules t) dummy_rt) with (mkRtRule 9 [(9, false, 0)] (CUser 4) 0)
      by (vm_compute; reflexivity).
    cbn [match_args rr_rhs rr_code run_code dsem u_block rr_lhs e_state].
    replace (find_reduce_action t 1 9) with (LAct 2) by (vm_compute; reflexivity).
    replace (t_nstate t) with 7 by (vm_compute; reflexivity).
    cbn [Nat.ltb Nat.leb].
    unfold yy_shift. replace (t_limit t) with 100 by (vm_compute; reflexivity).
    cbn. apply IH; reflexivity. }
  intros fuel.
  destruct fuel as [|[|[|n]]]; try (vm_compute; reflexivity).
  unfold api_run, run. fold h.
  assert (Hp : exists p, parse_all (S (S (S n))) t h (new_parser h []) [(4, (0, VUnit)); (5, (0, VUnit))] = ROk tt p
       /\ ps_status p = Normal
       /\ exists p', yy_reduce t h p 4 = ROk tt p' /\ ps_status p' = Normal
          /\ ps_stack p = mkEntry 4 5 (0, VUnit) :: tl (ps_stack p)
          /\ map (fun e => (e_state e, e_major e, fst (e_minor e))) (ps_stack p')
               = [(2, 9, 0); (1, 4, 0); (0, 0, 0)]).
  { eexists. split; [vm_compute; reflexivity|]. split; [vm_compute; reflexivity|].
    eexists. split; [vm_compute; reflexivity|]. split; [vm_compute; reflexivity|].
    split; vm_compute; reflexivity. }
  destruct Hp as (p & Hp & Hn & p' & Hr & Hn' & Hst & Hsk).
  assert (Hall : parse_all (S (S (S n))) t h (new_parser h [])
      (map (token_value t dsem) [(4, None); (5, None); (1, None)]) =
      rbind (parse_all (S (S (S n))) t h (new_parser h []) [(4, (0, VUnit)); (5, (0, VUnit))])
        (fun _ q => parse_all (S (S (S n))) t h q [(1, (0, VUnit))])).
  { change (map (token_value t dsem) [(4, None); (5, None); (1, None)])
      with [(4, (0, VUnit)); (5, (0, VUnit)); (1, (0, VUnit))].
    cbn [parse_all]. destruct (parse_token (S (S (S n))) t h (new_parser h []) 4 (0, VUnit)); simpl; auto.
    destruct (parse_token (S (S (S n))) t h p0 5 (0, VUnit)); reflexivity. }
  rewrite Hall, Hp. cbn [rbind parse_all]. unfold parse_token at 1. rewrite Hn.
  generalize (S (S n)) as k. intros k. cbn [parse_token_2]. rewrite Hn, Hst. cbn [e_state].
  replace (find_shift_action t 4 1) with (LAct 11) by (vm_compute; reflexivity).
  replace (t_nstate t) with 7 by (vm_compute; reflexivity).
  replace (t_nrule t) with 5 by (vm_compute; reflexivity).
  cbn [Nat.ltb Nat.leb Nat.add Nat.sub]. rewrite Hr. cbn [rbind].
  rewrite Hs; auto.
Qed.

(** ** i. With an error rule, %syntax_error can be run for one token after the other; see Refutations3.v.
    input ::= l;  l ::= ;  l ::= l s Semi;  s ::= A;  s ::= error *)
Definition rec_ds : list decl :=
  [rl "input" ["l"] 1; rl "l" [] 2; rl "l" ["l"; "s"; "Semi"] 3; rl "s" ["A"] 4; rl "s" ["error"] 5].
Definition rec_b := Eval vm_compute in get (build 300 ida rec_ds).

(** Giving [error] a type is enough to switch to the recovery code although no rule uses
    it: the first error then ends the parse through %parse_fail, %syntax_error is not run. *)
Definition ety_ds : list decl := [DType 0 "error" (Some (TyName "T")); rl "input" ["A"; "B"] 1].
Theorem error_type_refuted :
  demo esem ety_ds [1; 1] = Fail_ 88 /\ demo esem (tl ety_ds) [1; 1; 2] = Accept_ VUnit [77; 1].
Proof. split; vm_compute; reflexivity. Qed.

(** ** j, k. "impossible pattern" and "unexpected root type" can be reached. *)
Definition pat_ds : list decl :=
  [DType 0 "K" (Some (TyName "T")); DFallback "Id" ["K"]; ra "input" ["Id"] 1; rl "input" ["K"; "K"] 2].
Definition root_ds : list decl := [DType 0 "Foo" (Some TyUnit); rl "input" ["Foo"] 1].
Theorem typing_refuted : demo dsem pat_ds [1] = Panic_ /\ demo dsem root_ds [1] = Panic_.
Proof. split; vm_compute; reflexivity. Qed.

(** ** l. The question mark after a compound is ignored: [input ::= A|B?;] rejects the
    empty input. *)
Definition opt_ds : list decl := [DRule "input" [(["A"; "B"], true, None)] (Some 1) None].
Theorem optional_compound_refuted :
  demo dsem opt_ds [] = Fail_ 88 /\ demo dsem opt_ds [2] = Accept_ VUnit [1].
Proof. split; vm_compute; reflexivity. Qed.

(** ** m. A second %stack_size silently replaces the first. *)
Theorem stack_size_twice_refuted :
  exists f, new_from_decls 300 (DStackSize 10 None :: DStackSize 20 None :: pan_ds) = GOk f
    /\ f_stack_limit f = 20.
Proof. eexists. split; vm_compute; reflexivity. Qed.

(** ** Expected tokens: s ::= A a C;  s ::= B a D;  a ::= X;  a ::= X Y;
    after [A X] the token [Y] could follow ([A X Y C] is accepted), but the list handed to
    %syntax_error for [D] is just [C]: [a ::= X] was already reduced. *)
Definition exp_ds : list decl :=
  [rl "s" ["A"; "a"; "C"] 1; rl "s" ["B"; "a"; "D"] 2; rl "a" ["X"] 3; rl "a" ["X"; "Y"] 4].
Definition xsem : sem val (list nat) nat :=
  mkSem VUnit VNone VSome (fun c l x => (x, inl (VBlock c l)))
    (fun _ exp x => (map fst exp, inr 77)) (fun x => (x, 88)) (fun _ x => (x, 99)).
(** A = 1, C = 2, D = 4, X = 5, Y = 6 *)
Theorem expected_refuted :
  exists b, build 300 ida exp_ds = GOk b
    /\ (exists v p, api_run 300 (bt_tables b) xsem [] [(1, None); (5, None); (6, None); (2, None)] = ROk v p)
    /\ exists p, api_run 300 (bt_tables b) xsem [] [(1, None); (5, None); (4, None)] = RErr 77 p
    /\ ~ In 6 (ps_extra p).
Proof.
  exists (get (build 300 ida exp_ds)). split; [vm_compute; reflexivity|].
  split; [do 2 eexists; vm_compute; reflexivity|].
  eexists. split; [vm_compute; reflexivity|]. simpl. intuition discriminate.
Qed.
