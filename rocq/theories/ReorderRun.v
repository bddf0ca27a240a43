(** Two sets of tables that differ in the numbers of the states and of the rules: the parsers run
    in step (C31). *)
From Verif Require Import Base Syntax BaseFacts FrontEnd First States Actions Tables Runtime User.

(** An action of the second tables and the same action in the first ones *)
Inductive same_code (ns nr : nat) (srel : nat -> nat -> Prop) (phi : nat -> nat) : nat -> nat -> Prop :=
| sc_shift a b : srel a b -> same_code ns nr srel phi a b
| sc_reduce r : r < nr -> same_code ns nr srel phi (ns + phi r) (ns + r)
| sc_other a : ns + nr <= a -> same_code ns nr srel phi a a.
Definition same_look (ns nr : nat) (srel : nat -> nat -> Prop) (phi : nat -> nat) (x y : look) : Prop :=
  match x, y with LAct a, LAct b => same_code ns nr srel phi a b | LPanic, LPanic => True | _, _ => False end.

Record in_step (t1 t2 : tables) (srel : nat -> nat -> Prop) (phi : nat -> nat) : Prop := {
  is_ns : t_nstate t1 = t_nstate t2;
  is_nr : t_nrule t1 = t_nrule t2;
  is_nterm : t_nterm t1 = t_nterm t2;
  is_err : t_err t1 = t_err t2;
  is_limit : t_limit t1 = t_limit t2;
  is_dts : t_dts t1 = t_dts t2;
  is_typed : t_typed t1 = t_typed t2;
  is_root : t_root t1 = t_root t2;
  is_zero : srel 0 0;
  is_range : forall a b, srel a b -> a < t_nstate t2 /\ b < t_nstate t2;
  is_phi : forall r, r < t_nrule t2 -> phi r < t_nrule t2;
  is_rule : forall r, r < t_nrule t2 -> nth_error (t_rules t1) (phi r) = nth_error (t_rules t2) r;
  is_shift : forall a b la, srel a b -> la < t_nterm t2 ->
    same_look (t_nstate t2) (t_nrule t2) srel phi (find_shift_action t1 a la) (find_shift_action t2 b la);
  is_goto : forall a b r rr, srel a b -> nth_error (t_rules t2) r = Some rr ->
    same_look (t_nstate t2) (t_nrule t2) srel phi (find_reduce_action t1 a (rr_lhs rr)) (find_reduce_action t2 b (rr_lhs rr));
  is_egoto : forall a b, srel a b -> t_err t2 <> 0 ->
    same_look (t_nstate t2) (t_nrule t2) srel phi (find_reduce_action t1 a (t_err t2)) (find_reduce_action t2 b (t_err t2)) }.

Lemma f2_len {A B} (P : A -> B -> Prop) l m : Forall2 P l m -> List.length l = List.length m.
Proof. induction 1; cbn; auto. Qed.
Definition ren_ev (phi : nat -> nat) (e : event) : event := match e with EvReduce r => EvReduce (phi r) | e => e end.

Section Run.
Context {M X E R : Type} (t1 t2 : tables) (srel : nat -> nat -> Prop) (phi : nat -> nat) (IS : in_step t1 t2 srel phi).
Context (h1 h2 : hooks M X E R).
Hypothesis (HRed : forall r vals x, r < t_nrule t2 -> h_reduce h1 (phi r) vals x = h_reduce h2 r vals x).
Hypothesis (HAcc : forall v, h_accept h1 v = h_accept h2 v).
Hypothesis (HSyn : forall m v l x, h_syntax h1 m v l x = h_syntax h2 m v l x).
Hypothesis (HFail : forall x, h_fail h1 x = h_fail h2 x).
Hypothesis (HOvf : forall m v x, h_overflow h1 m v x = h_overflow h2 m v x).
Hypothesis (HUnit : h_unit h1 = h_unit h2).

Definition same_entry (e f : entry M) : Prop := srel (e_state e) (e_state f) /\ e_major e = e_major f /\ e_minor e = e_minor f.
Record same_parser (p q : parser M X R) : Prop := {
  sp_count : ps_count p = ps_count q;
  sp_stack : Forall2 same_entry (ps_stack p) (ps_stack q);
  sp_extra : ps_extra p = ps_extra q;
  sp_status : ps_status p = ps_status q;
  sp_log : ps_log p = map (ren_ev phi) (ps_log q) }.
Definition same_res {A} (x y : res M X E R A) : Prop :=
  match x, y with
  | ROk a p, ROk b q => a = b /\ same_parser p q
  | RErr e p, RErr f q => e = f /\ same_parser p q
  | RPanic, RPanic | RFuel, RFuel => True
  | _, _ => False
  end.

Lemma same_bind {A B} (x y : res M X E R A) (f h : A -> parser M X R -> res M X E R B) : same_res x y ->
  (forall a p q, same_parser p q -> same_res (f a p) (h a q)) -> same_res (rbind x f) (rbind y h).
Proof. destruct x, y; cbn; try tauto. intros [-> H] HF. auto. Qed.
Lemma same_set_stack p q s s' : same_parser p q -> Forall2 same_entry s s' -> same_parser (set_stack p s) (set_stack q s').
Proof. intros [H1 H2 H3 H4 H5] H. constructor; cbn; auto. Qed.
Lemma same_set_extra p q x : same_parser p q -> same_parser (set_extra p x) (set_extra q x).
Proof. intros [H1 H2 H3 H4 H5]. constructor; cbn; auto. Qed.
Lemma same_set_count p q c : same_parser p q -> same_parser (set_count p c) (set_count q c).
Proof. intros [H1 H2 H3 H4 H5]. constructor; cbn; auto. Qed.
Lemma same_set_status p q s : same_parser p q -> same_parser (set_status p s) (set_status q s).
Proof. intros [H1 H2 H3 H4 H5]. constructor; cbn; auto. Qed.
Lemma same_logged p q e e' : same_parser p q -> e = ren_ev phi e' -> same_parser (Runtime.log p e) (Runtime.log q e').
Proof. intros [H1 H2 H3 H4 H5] ->. constructor; cbn; auto. now rewrite H5. Qed.

Lemma same_yy_shift p q a b major v : same_parser p q -> srel a b -> same_res (yy_shift t1 h1 p a major v) (yy_shift t2 h2 q b major v).
Proof.
  intros SP Hab. unfold yy_shift. rewrite (is_limit _ _ _ _ IS), (sp_extra _ _ SP), HOvf.
  assert (EL : List.length (ps_stack p) = List.length (ps_stack q)) by (eapply f2_len; apply (sp_stack _ _ SP)).
  rewrite EL. destruct (_ && _).
  - destruct (h_overflow h2 major v (ps_extra q)) as [x e]. cbn. split; auto. apply same_logged; auto. now apply same_set_extra.
  - cbn. split; auto. apply same_set_stack; auto. constructor; [|apply (sp_stack _ _ SP)]. repeat split; auto.
Qed.

Lemma same_pop : forall n s s' acc, Forall2 same_entry s s' ->
  match pop_n n s acc, pop_n n s' acc with
  | Some (v, r), Some (v', r') => v = v' /\ Forall2 same_entry r r'
  | None, None => True
  | _, _ => False
  end.
Proof.
  induction n as [|n IH]; intros s s' acc HS; cbn; auto. destruct HS as [|e f s s' (_ & _ & HM) HS]; auto. rewrite HM. now apply IH.
Qed.

Lemma code_shift a b : same_code (t_nstate t2) (t_nrule t2) srel phi a b -> (a <? t_nstate t2) = (b <? t_nstate t2) /\ (b < t_nstate t2 -> srel a b).
Proof.
  intros [x y H|r H|x H].
  - destruct (is_range _ _ _ _ IS _ _ H) as [L1 L2]. apply Nat.ltb_lt in L1, L2. rewrite L1, L2. auto.
  - split; [|lia]. transitivity false; [|symmetry]; apply Nat.ltb_ge; lia.
  - split; [auto|lia].
Qed.
Lemma code_eqb a b k : same_code (t_nstate t2) (t_nrule t2) srel phi a b -> t_nstate t2 + t_nrule t2 <= k -> (a =? k) = (b =? k).
Proof.
  intros [x y H|r H|x H] Lk; auto.
  - destruct (is_range _ _ _ _ IS _ _ H) as [L1 L2]. transitivity false; [|symmetry]; apply Nat.eqb_neq; lia.
  - pose proof (is_phi _ _ _ _ IS r H). transitivity false; [|symmetry]; apply Nat.eqb_neq; lia.
Qed.
Lemma code_ltb a b : same_code (t_nstate t2) (t_nrule t2) srel phi a b -> (a <? t_nstate t2 + t_nrule t2) = (b <? t_nstate t2 + t_nrule t2).
Proof.
  intros [x y H|r H|x H]; auto.
  - destruct (is_range _ _ _ _ IS _ _ H) as [L1 L2]. transitivity true; [|symmetry]; apply Nat.ltb_lt; lia.
  - pose proof (is_phi _ _ _ _ IS r H). transitivity true; [|symmetry]; apply Nat.ltb_lt; lia.
Qed.
Lemma code_reduce a b : same_code (t_nstate t2) (t_nrule t2) srel phi a b -> t_nstate t2 <= b < t_nstate t2 + t_nrule t2 ->
  b - t_nstate t2 < t_nrule t2 /\ a - t_nstate t2 = phi (b - t_nstate t2).
Proof.
  intros [x y H|r H|x H] Lb.
  - destruct (is_range _ _ _ _ IS _ _ H). lia.
  - replace (t_nstate t2 + r - t_nstate t2) with r by lia. split; lia.
  - lia.
Qed.

Lemma same_yy_reduce p q r : same_parser p q -> r < t_nrule t2 -> same_res (yy_reduce t1 h1 p (phi r)) (yy_reduce t2 h2 q r).
Proof.
  intros SP Hr. unfold yy_reduce. rewrite (is_rule _ _ _ _ IS r Hr). destruct (nth_error (t_rules t2) r) as [rr|] eqn:Er; [|exact I].
  pose proof (same_pop (List.length (rr_rhs rr)) _ _ [] (sp_stack _ _ SP)) as HP. destruct (pop_n _ (ps_stack p) []) as [[v1 s1]|], (pop_n _ (ps_stack q) []) as [[v2 s2]|]; try contradiction; [|exact I].
  destruct HP as [-> HS]. rewrite (sp_extra _ _ SP), (HRed r v2 (ps_extra q) Hr). destruct (h_reduce h2 r v2 (ps_extra q)) as [[x ve]|]; [|exact I].
  assert (SP1 : same_parser (Runtime.log (set_extra (set_stack p s1) x) (EvReduce (phi r))) (Runtime.log (set_extra (set_stack q s2) x) (EvReduce r))).
  { apply same_logged; auto. apply same_set_extra. now apply same_set_stack. }
  destruct ve as [v|e]; [|cbn; auto]. destruct HS as [|e f s s' HE HS]; [exact I|]. destruct HE as (HE & _).
  pose proof (is_goto _ _ _ _ IS _ _ r rr HE Er) as HL. destruct (find_reduce_action t1 (e_state e) (rr_lhs rr)) as [a| |], (find_reduce_action t2 (e_state f) (rr_lhs rr)) as [b| |]; try contradiction; [|exact I].
  cbn in HL. destruct (code_shift _ _ HL) as [EL HSh]. rewrite (is_ns _ _ _ _ IS), (is_nr _ _ _ _ IS), EL, (code_eqb _ _ (t_nstate t2 + t_nrule t2 + 1) HL) by lia.
  destruct (b <? t_nstate t2) eqn:Eb; [apply Nat.ltb_lt in Eb; apply same_yy_shift; auto|]. destruct (b =? _); [|exact I]. rewrite HAcc. destruct (h_accept h2 v); [|exact I].
  cbn. split; auto. apply same_logged; auto. apply same_set_status. now apply same_set_stack.
Qed.

Lemma same_failed {A} p q : same_parser p q -> same_res (A := A) (yy_parse_failed h1 p) (yy_parse_failed h2 q).
Proof.
  intros SP. unfold yy_parse_failed. rewrite (sp_extra _ _ SP), HFail. destruct (h_fail h2 (ps_extra q)) as [x e]. cbn. split; auto. apply same_logged; auto. apply same_set_extra. now apply same_set_stack.
Qed.
Lemma same_expected a b : srel a b -> expected_tokens t1 a = expected_tokens t2 b.
Proof.
  intros H. unfold expected_tokens. rewrite (is_nterm _ _ _ _ IS), (is_ns _ _ _ _ IS), (is_nr _ _ _ _ IS). apply filter_ext_in. intros m Hm. apply in_seq in Hm.
  pose proof (is_shift _ _ _ _ IS a b m H) as HL. destruct (find_shift_action t1 a m), (find_shift_action t2 b m); cbn in HL; try (exfalso; apply HL; lia); auto. apply code_ltb, HL. lia.
Qed.

Lemma same_recover : forall n a b major v p q, t_err t2 <> 0 -> srel a b -> same_parser p q -> same_res (recover t1 h1 n a major v p) (recover t2 h2 n b major v q).
Proof.
  induction n as [|n IH]; intros a b major v p q HE Hab SP; cbn [recover]; [exact I|]. pose proof (sp_stack _ _ SP) as HS.
  destruct (ps_stack p) as [|e s] eqn:Es, (ps_stack q) as [|f s'] eqn:Es'; try (inversion HS; fail); [cbn; auto|]. inversion HS as [|? ? ? ? (H1 & H2 & H3) HS']; subst.
  rewrite H2, (is_err _ _ _ _ IS). destruct (e_major f =? t_err t2); [cbn; auto|].
  pose proof (is_egoto _ _ _ _ IS _ _ H1 HE) as HL. destruct (find_reduce_action t1 (e_state e) (t_err t2)) as [c| |], (find_reduce_action t2 (e_state f) (t_err t2)) as [d| |]; try contradiction; [|exact I].
  cbn in HL. destruct (code_shift _ _ HL) as [EL HSh]. rewrite (is_ns _ _ _ _ IS), EL. destruct (d <? t_nstate t2) eqn:Ed.
  - rewrite (same_expected a b Hab), (sp_extra _ _ SP), HSyn. destruct (h_syntax h2 major v (expected_tokens t2 b) (ps_extra q)) as [x ve].
    assert (SP1 : same_parser (Runtime.log (set_extra p x) (EvSyntaxError major)) (Runtime.log (set_extra q x) (EvSyntaxError major))) by (apply same_logged; auto; now apply same_set_extra).
    destruct ve as [w|er]; [|cbn; auto]. apply same_bind; [apply same_yy_shift; auto; apply Nat.ltb_lt in Ed; auto|]. intros u p' q' SP'. cbn. split; auto. now apply same_logged.
  - apply IH; auto. apply same_logged; auto. now apply same_set_stack.
Qed.

Lemma same_syntax p q a b major v : same_parser p q -> srel a b -> same_res (syntax_error t1 h1 p a major v) (syntax_error t2 h2 q b major v).
Proof.
  intros SP Hab. unfold syntax_error. destruct (major =? 0); [now apply same_failed|]. rewrite (is_err _ _ _ _ IS). destruct (Nat.eqb_spec (t_err t2) 0) as [E0|N0]; cbn [negb].
  - rewrite (sp_count _ _ SP). destruct (ps_count q =? 0).
    + rewrite (same_expected a b Hab), (sp_extra _ _ SP), HSyn. destruct (h_syntax h2 major v (expected_tokens t2 b) (ps_extra q)) as [x ve].
      assert (SP1 : same_parser (Runtime.log (set_extra p x) (EvSyntaxError major)) (Runtime.log (set_extra q x) (EvSyntaxError major))) by (apply same_logged; auto; now apply same_set_extra).
      destruct ve as [w|er]; cbn; split; auto. apply same_logged; auto. now apply same_set_count.
    + cbn. split; auto. apply same_logged; auto. now apply same_set_count.
  - assert (EL : List.length (ps_stack p) = List.length (ps_stack q)) by (eapply f2_len; apply (sp_stack _ _ SP)). rewrite EL.
    apply same_bind; [now apply same_recover|]. intros u p' q' SP'. pose proof (sp_stack _ _ SP') as HS. destruct HS; [now apply same_failed|]. cbn. split; auto. apply same_logged; auto. now apply same_set_count.
Qed.

Lemma same_token_2 major v : major < t_nterm t2 -> forall n p q, same_parser p q -> same_res (parse_token_2 n t1 h1 p major v) (parse_token_2 n t2 h2 q major v).
Proof.
  intros HM. induction n as [|n IH]; intros p q SP; cbn [parse_token_2]; [exact I|]. rewrite (sp_status _ _ SP). destruct (ps_status q) eqn:Eq; [|cbn; auto..].
  pose proof (sp_stack _ _ SP) as HS. destruct (ps_stack p) as [|e s] eqn:Es, (ps_stack q) as [|f s'] eqn:Es'; try (inversion HS; fail); [exact I|]. inversion HS as [|? ? ? ? (H1 & H2 & H3) HS']; subst.
  pose proof (is_shift _ _ _ _ IS _ _ major H1 HM) as HL. destruct (find_shift_action t1 (e_state e) major) as [c| |], (find_shift_action t2 (e_state f) major) as [d| |]; try contradiction; [|exact I].
  cbn in HL. destruct (code_shift _ _ HL) as [EL HSh]. rewrite (is_ns _ _ _ _ IS), (is_nr _ _ _ _ IS), EL, (code_ltb _ _ HL), (code_eqb _ _ (t_nstate t2 + t_nrule t2) HL) by lia.
  destruct (Nat.ltb_spec d (t_nstate t2)) as [Ld|Ld].
  - destruct (major =? 0); [exact I|]. apply same_bind; [apply same_yy_shift; auto|]. intros u p' q' SP'. cbn. split; auto. rewrite (sp_count _ _ SP'). apply same_logged; auto. now apply same_set_count.
  - destruct (Nat.ltb_spec d (t_nstate t2 + t_nrule t2)) as [Ld'|Ld'].
    + destruct (code_reduce _ _ HL (conj Ld Ld')) as [Lr ->]. apply same_bind; [now apply same_yy_reduce|]. intros u p' q' SP'. now apply IH.
    + destruct (d =? _); [|exact I]. now apply same_syntax.
Qed.

Lemma same_token n p q major v : major < t_nterm t2 -> same_parser p q -> same_res (parse_token n t1 h1 p major v) (parse_token n t2 h2 q major v).
Proof.
  intros HM SP. unfold parse_token. rewrite (sp_status _ _ SP). destruct (ps_status q); try exact I. pose proof (same_token_2 major v HM n p q SP) as HR.
  destruct (parse_token_2 n t1 h1 p major v), (parse_token_2 n t2 h2 q major v); cbn in *; auto. destruct HR as [-> HR]. split; auto. now apply same_set_status.
Qed.
Lemma same_end n p q : 0 < t_nterm t2 -> same_parser p q -> same_res (end_of_input n t1 h1 p) (end_of_input n t2 h2 q).
Proof.
  intros H0 SP. unfold end_of_input. rewrite HUnit. apply same_bind; [now apply same_token|]. intros u p' q' SP'. rewrite (sp_status _ _ SP'). destruct (ps_status q'); try exact I. cbn. rewrite (sp_extra _ _ SP'). auto.
Qed.
Lemma same_all n : forall ts p q, Forall (fun k => fst k < t_nterm t2) ts -> same_parser p q -> same_res (parse_all n t1 h1 p ts) (parse_all n t2 h2 q ts).
Proof.
  induction ts as [|[a v] ts IH]; intros p q HT SP; cbn [parse_all]; [cbn; auto|]. inversion HT as [|? ? H1 H2]; subst. apply same_bind; [now apply same_token|]. intros u p' q' SP'. now apply IH.
Qed.
Lemma same_new x : same_parser (new_parser h1 x) (new_parser h2 x).
Proof. constructor; cbn; auto. constructor; auto. repeat split; cbn; auto. apply (is_zero _ _ _ _ IS). Qed.
Lemma same_run n x ts : 0 < t_nterm t2 -> Forall (fun k => fst k < t_nterm t2) ts -> same_res (run n t1 h1 x ts) (run n t2 h2 x ts).
Proof. intros H0 HT. unfold run. apply same_bind; [apply same_all; auto using same_new|]. intros u p q SP. now apply same_end. Qed.
End Run.

(** ** With the code generated for rules and tokens *)
Section Api.
Context {V X E : Type} (t1 t2 : tables) (srel : nat -> nat -> Prop) (phi : nat -> nat) (IS : in_step t1 t2 srel phi) (sm : sem V X E).

Lemma same_value k : token_value t1 sm k = token_value t2 sm k.
Proof. unfold token_value, dt_of. now rewrite (is_dts _ _ _ _ IS). Qed.
Lemma same_build i m : @token_build V t1 i m = token_build t2 i m.
Proof. unfold token_build, dt_of, typed. now rewrite (is_dts _ _ _ _ IS), (is_typed _ _ _ _ IS), (is_nterm _ _ _ _ IS). Qed.
Lemma same_rule_reduce r vals x : r < t_nrule t2 -> h_reduce (user_hooks t1 sm) (phi r) vals x = h_reduce (user_hooks t2 sm) r vals x.
Proof.
  intros Hr. cbn [h_reduce user_hooks]. unfold rule_reduce. assert (En : nth (phi r) (t_rules t1) dummy_rt = nth r (t_rules t2) dummy_rt).
  { pose proof (is_rule _ _ _ _ IS r Hr) as Er. destruct (nth_error (t_rules t2) r) as [rr|] eqn:E2.
    - now rewrite (nth_error_nth _ _ _ Er), (nth_error_nth _ _ _ E2).
    - apply nth_error_None in Er, E2. now rewrite !nth_overflow. }
  now rewrite En.
Qed.
Lemma same_h_syntax m v l x : h_syntax (user_hooks t1 sm) m v l x = h_syntax (user_hooks t2 sm) m v l x.
Proof.
  cbn. rewrite same_build, (is_err _ _ _ _ IS). unfold dt_of. rewrite (is_dts _ _ _ _ IS). erewrite map_ext; [reflexivity|]. intros i. cbn. now rewrite same_build.
Qed.
Lemma same_h_accept v : h_accept (user_hooks t1 sm) v = h_accept (user_hooks t2 sm) v.
Proof. cbn. now rewrite (is_root _ _ _ _ IS). Qed.
Lemma same_h_overflow m v x : h_overflow (user_hooks t1 sm) m v x = h_overflow (user_hooks t2 sm) m v x.
Proof. cbn. now rewrite same_build. Qed.

Theorem same_api_parse n p q k : fst k < t_nterm t2 -> same_parser srel phi p q -> same_res srel phi (api_parse n t1 sm p k) (api_parse n t2 sm q k).
Proof.
  intros HK SP. unfold api_parse. rewrite same_value. destruct (token_value t2 sm k) as [a v] eqn:Ek. assert (a = fst k) by (unfold token_value in Ek; congruence). subst a.
  apply same_token; auto using same_rule_reduce, same_h_accept, same_h_syntax, same_h_overflow.
Qed.
Theorem same_api_end n p q : 0 < t_nterm t2 -> same_parser srel phi p q -> same_res srel phi (end_of_input n t1 (user_hooks t1 sm) p) (end_of_input n t2 (user_hooks t2 sm) q).
Proof. intros H0 SP. apply same_end; auto using same_rule_reduce, same_h_accept, same_h_syntax, same_h_overflow. Qed.
Theorem same_api_run n x ks : 0 < t_nterm t2 -> Forall (fun k => fst k < t_nterm t2) ks -> same_res srel phi (api_run n t1 sm x ks) (api_run n t2 sm x ks).
Proof.
  intros H0 HK. unfold api_run. rewrite (map_ext _ _ same_value). apply same_run; auto using same_rule_reduce, same_h_accept, same_h_syntax, same_h_overflow.
  rewrite Forall_map. eapply Forall_impl; [|exact HK]. intros k Hk. exact Hk.
Qed.
End Api.
