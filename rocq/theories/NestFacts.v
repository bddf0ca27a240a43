(** Grammars of operators lose nothing: if every operator compares with every other, each string
    with a tree has one nested as declared (C41).  Only declarations and trees are used. *)
From Verif Require Import Base Syntax BaseFacts FrontEnd DeclSpec LangFacts GramFacts TreeSpec PrecSpec.
Open Scope string_scope. Open Scope nat_scope. Open Scope list_scope.

Section Nest.
Context (ds : list decl) (s n : ident) (OP : operators ds s n).
Notation rules := (rules_in ds).
Definition lastn (es : list rhs_elem) : Prop := exists l al, es = l ++ [([n], false, al)].

(** Infix and postfix operators on the left edge, and what is on the right edge *)
Definition ledge (j : nat) (a : ident) (c : dtree) : Prop := exists u us, leads (LRule j (u :: LTok a :: us)) c /\ starts_with ds j n a.
Inductive redge (u : dtree) : dtree -> Prop :=
| re_here : redge u u
| re_last i l c : redge u c -> redge u (LRule i (l ++ [c])).
Definition over_left (d : drule) (ts : list dtree) : Prop := forall l c, ts = l ++ [c] -> lastn (d_rhs d) -> forall j a, ledge j a c -> tok_over ds a d.
Definition closed (a : ident) (u : dtree) : Prop := forall k dk ts, redge (LRule k ts) u -> ends_in ds k dk n -> rule_over ds dk a.

(** A tree for the operand, every node of which is nested as declared *)
Inductive good : dtree -> Prop :=
| g_node i d ts : nth_error rules i = Some d -> d_lhs d = n -> goods (d_rhs d) ts -> over_left d ts ->
    (forall u a us, ts = u :: LTok a :: us -> starts_with ds i n a -> closed a u) -> good (LRule i ts)
with goods : list rhs_elem -> list dtree -> Prop :=
| gs_nil : goods [] []
| gs_n e es t ts : operand n e -> good t -> goods es ts -> goods (e :: es) (t :: ts)
| gs_t a e es ts : is_token ds a e -> goods es ts -> goods (e :: es) (LTok a :: ts).
Scheme good_ind2 := Induction for good Sort Prop with goods_ind2 := Induction for goods Sort Prop.

Lemma goods_app es es' ts ts' : goods es ts -> goods es' ts' -> goods (es ++ es') (ts ++ ts').
Proof. induction 1; cbn; intros; [auto|apply gs_n; auto|apply gs_t; auto]. Qed.
Lemma goods_split es es' ts : goods (es ++ es') ts -> exists u v, ts = u ++ v /\ goods es u /\ goods es' v.
Proof.
  revert ts. induction es as [|e es IH]; cbn; intros ts H; [exists [], ts; splits; auto; constructor|].
  inversion H as [|? ? t0 ts0 Ho Ht HG|a ? ? ts0 Ha HG]; subst; destruct (IH _ HG) as (u & v & -> & Hu & Hv).
  - exists (t0 :: u), v. splits; auto. now apply gs_n.
  - exists (LTok a :: u), v. splits; auto. now apply gs_t.
Qed.
Lemma goods_len es ts : goods es ts -> List.length es = List.length ts.
Proof. induction 1; cbn; auto. Qed.
Lemma operand_low e : operand n e -> forall a, ~ is_token ds a e.
Proof. intros (al & ->) a (U & _ & al' & E). injection E as -> _. eapply upper_lower; [exact U|apply (op_low _ _ _ OP)]. Qed.
Lemma token_same a b e : is_token ds a e -> is_token ds b e -> a = b.
Proof. intros (_ & _ & al & ->) (_ & _ & al' & E). congruence. Qed.

Lemma rule_n i d : nth_error rules i = Some d -> d_lhs d = n -> d_rhs d <> [] /\ (forall e, d_rhs d = [e] -> ~ operand n e) /\ (forall e, In e (d_rhs d) -> operand n e \/ exists a, is_token ds a e) /\
  (forall l e e' l', d_rhs d = l ++ e :: e' :: l' -> operand n e -> ~ operand n e').
Proof. intros H HL. destruct (op_rule _ _ _ OP d (nth_error_In _ _ H)) as [(E & _)|(_ & H1 & H2 & H3 & H4)]; [exfalso; apply (op_new _ _ _ OP); congruence|auto]. Qed.

(** A rule starts with a token, or with an operand and a token. *)
Lemma rule_head i d : nth_error rules i = Some d -> d_lhs d = n -> (exists a e es, d_rhs d = e :: es /\ is_token ds a e) \/ exists a o e es, d_rhs d = o :: e :: es /\ operand n o /\ is_token ds a e.
Proof.
  intros H HL. destruct (rule_n i d H HL) as (H1 & H2 & H3 & H4). destruct (d_rhs d) as [|e es] eqn:Ed; [contradiction|]. destruct (H3 e (or_introl eq_refl)) as [Ho|(a & Ha)]; [right|left; eauto].
  destruct es as [|e' es]; [exfalso; now apply (H2 e)|]. destruct (H3 e' (or_intror (or_introl eq_refl))) as [Ho'|(a & Ha)]; [exfalso; exact (H4 [] e e' es eq_refl Ho Ho')|]. exists a, e, e', es. auto.
Qed.
Lemma starts_rule j d a o e es : nth_error rules j = Some d -> d_lhs d = n -> d_rhs d = o :: e :: es -> operand n o -> is_token ds a e -> starts_with ds j n a.
Proof. intros H HL Ed (al & ->) (U & HC & al' & ->). exists d, al, ([a], false, al'), es. splits; auto. left. exists a, al'. split; auto. split; auto. now rewrite HC. Qed.
Lemma starts_token j a k : starts_with ds j k a -> k = n /\ exists d o e es, nth_error rules j = Some d /\ d_lhs d = n /\ d_rhs d = o :: e :: es /\ operand n o /\ is_token ds a e.
Proof.
  intros (d & al & e & es & H & HL & Ed & HS). assert (Ek : k = n).
  { destruct (op_rule _ _ _ OP d (nth_error_In _ _ H)) as [(_ & e0 & E & _)|(E & _)]; [rewrite Ed in E; discriminate|congruence]. }
  assert (HLn : d_lhs d = n) by congruence. rewrite Ek in Ed. split; auto. exists d, ([n], false, al), e, es. assert (Ho0 : operand n ([n], false, al)) by now exists al. splits; auto. destruct (rule_n j d H HLn) as (_ & _ & H3 & H4). rewrite Ed in H3, H4.
  destruct (H3 e (or_intror (or_introl eq_refl))) as [Ho|(b & Hb)]; [exfalso; exact (H4 [] _ _ es eq_refl (ex_intro _ al eq_refl) Ho)|]. pose proof Hb as (U & HC & al' & ->).
  destruct HS as [(k2 & al2 & E & HU & Hst)|(ns & o & al2 & E & L & _)].
  - injection E as <- <-. rewrite HC in Hst. now subst.
  - injection E as <- <- <-. simpl in L. lia.
Qed.

(** A suffix: an operator and what is to the right of it *)
Definition suffix (j : nat) (a : ident) (us : list dtree) : Prop :=
  exists d o e es, nth_error rules j = Some d /\ d_lhs d = n /\ d_rhs d = o :: e :: es /\ operand n o /\ is_token ds a e /\ goods es us /\
    forall l c, us = l ++ [c] -> lastn es -> forall k b, ledge k b c -> tok_over ds b d.

Lemma lastn_cons e (es : list rhs_elem) x : lastn (e :: x :: es) <-> lastn (x :: es).
Proof.
  split.
  - intros (l & al & E). destruct l as [|y l]; [discriminate|]. injection E as -> E. exists l, al. auto.
  - intros (l & al & E). exists (e :: l), al. now rewrite E.
Qed.
Definition lastn_tl e es x := proj1 (lastn_cons e es x).
Definition lastn_up e es x := proj2 (lastn_cons e es x).
Lemma lastn_token a e : is_token ds a e -> ~ lastn [e].
Proof. intros Ha (l & al & E). destruct l as [|? [|? ?]]; try discriminate. injection E as ->. eapply operand_low; eauto. now exists al. Qed.

Lemma suffix_good j a us c : suffix j a us -> good c -> closed a c -> good (LRule j (c :: LTok a :: us)).
Proof.
  intros (d & o & e & es & H & HL & Ed & Ho & Ha & HG & HR) Hc HC. apply g_node with (d := d); auto.
  - rewrite Ed. apply gs_n; auto. now apply gs_t.
  - intros l x E Hl k b Hk. rewrite Ed in Hl. apply lastn_tl in Hl. destruct us as [|u us].
    + inversion HG; subst. exfalso. exact (lastn_token a e Ha Hl).
    + destruct es as [|e1 es]; [inversion HG|]. apply lastn_tl in Hl. destruct l as [|x1 [|x2 l]]; [discriminate|destruct us; discriminate|]. injection E as _ _ E. eapply HR; eauto.
  - intros u b us' E Hs. injection E as -> -> ->. exact HC.
Qed.
Lemma good_suffix j c a us : good (LRule j (c :: LTok a :: us)) -> starts_with ds j n a -> suffix j a us /\ good c /\ closed a c.
Proof.
  intros HG HS. inversion HG as [? d ? H HL Hgs HO HC]; subst. destruct (starts_token j a n HS) as (_ & d' & o & e & es & H' & _ & Ed & Ho & Ha). assert (d' = d) by congruence. subst d'. rewrite Ed in Hgs.
  inversion Hgs as [|? ? ? ? _ Hc Hgs2|b ? ? ? Hb _]; subst; [|exfalso; eapply operand_low; eauto]. inversion Hgs2 as [|? ? ? ? Ho' _ _|b ? ? ? Hb Hgs3]; subst; [exfalso; eapply operand_low; eauto|].
  splits; auto; [|eapply HC; eauto]. exists d, o, e, es. splits; auto. intros l x -> Hl. apply (HO (c :: LTok a :: l) x eq_refl). rewrite Ed. destruct es as [|e1 es]; [inversion Hgs3 as [E|E|E]; destruct l; discriminate|]. now apply lastn_up, lastn_up.
Qed.

(** ** Putting an operator to the right of a tree *)
Hypothesis CMP : forall i di j a, ends_in ds i di n -> d_lhs di = n -> starts_with ds j n a -> tok_over ds a di \/ rule_over ds di a.

Lemma redge_node k ts i l c : redge (LRule k ts) (LRule i (l ++ [c])) -> (k = i /\ ts = l ++ [c]) \/ redge (LRule k ts) c.
Proof. intros H. remember (l ++ [c]) as z eqn:Ez. inversion H; subst; [left; auto|]. match goal with E : _ ++ [_] = _ ++ [_] |- _ => apply app_inj_tail in E as [_ E2] end. subst. now right. Qed.
Lemma redge_tok k ts a : ~ redge (LRule k ts) (LTok a).
Proof. intros H. inversion H. Qed.
Lemma ledge_first j a i x y ts ts' : ledge j a (LRule i (x :: y :: ts)) -> (forall b u us, x :: y :: ts = u :: LTok b :: us -> exists us', x :: y :: ts' = u :: LTok b :: us') -> ledge j a (LRule i (x :: y :: ts')).
Proof.
  intros (u & us & HL & HS) HK. inversion HL as [|i' c r H'|]; subst.
  - destruct (HK a _ _ eq_refl) as (us' & E'). exists x, us'. split; auto. rewrite E'. constructor.
  - exists u, us. split; auto. now constructor.
Qed.

Lemma last_rule es d i : nth_error rules i = Some d -> d_lhs d = n -> d_rhs d = es -> lastn es -> ends_in ds i d n.
Proof. intros H HL E (l & al & El). split; auto. exists l, al. congruence. Qed.
Lemma goods_last es ts : goods es ts -> lastn es -> exists es' al l c, es = es' ++ [([n], false, al)] /\ ts = l ++ [c] /\ goods es' l /\ good c.
Proof.
  intros HG (es' & al & ->). apply goods_split in HG as (l & v & -> & H1 & H2). inversion H2 as [|? ? t0 ts0 Ho Ht HG|a ? ? ts0 Ha HG]; subst.
  - inversion HG; subst. exists es', al, l, t0. auto.
  - exfalso. eapply operand_low; eauto. now exists al.
Qed.
Lemma lastn_dec (es : list rhs_elem) : lastn es \/ ~ lastn es.
Proof.
  destruct (rev es) as [|[[ns o] al] l] eqn:E; apply (f_equal (@rev _)) in E; rewrite rev_involutive in E; cbn in E; subst es.
  - right. intros (l & al & H). destruct l; discriminate.
  - destruct ns as [|k [|? ?]]; [right| |right]; try (intros (l' & al' & H); apply app_inj_tail in H as [_ H]; discriminate). destruct o; [right; intros (l' & al' & H); apply app_inj_tail in H as [_ H]; discriminate|].
    destruct (string_dec k n) as [-> |N]; [left; eexists; eexists; reflexivity|right; intros (l' & al' & H); apply app_inj_tail in H as [_ H]; congruence].
Qed.

Lemma insert j a us : suffix j a us -> forall c, good c -> closed a c \/ exists c', good c' /\ leaves c' = leaves c ++ a :: flat_map leaves us /\ forall k b, ledge k b c' -> ledge k b c.
Proof.
  intros HS. assert (HSt : starts_with ds j n a) by (destruct HS as (d & o & e & es & H & HL & Ed & Ho & Ha & _); eapply starts_rule; eauto).
  apply (good_ind2 (fun c _ => closed a c \/ exists c', good c' /\ leaves c' = leaves c ++ a :: flat_map leaves us /\ forall k b, ledge k b c' -> ledge k b c)
    (fun es ts _ => forall l c, ts = l ++ [c] -> lastn es -> closed a c \/ exists c', good c' /\ leaves c' = leaves c ++ a :: flat_map leaves us /\ forall k b, ledge k b c' -> ledge k b c)).
  - intros i d ts H HL HG IH HO HC. destruct (lastn_dec (d_rhs d)) as [Hl|Hl].
    2:{ left. intros k dk ts' HR [Hk (es' & al & Ek)]. inversion HR as [|i' l c HR']; subst.
        - exfalso. apply Hl. exists es', al. congruence.
        - exfalso. clear - OP HG HR' Hl. assert (Hlen : exists es1 e, d_rhs d = es1 ++ [e]).
          { destruct (rev (d_rhs d)) as [|e r] eqn:E; apply (f_equal (@rev _)) in E; rewrite rev_involutive in E; cbn in E; rewrite E in *; [apply goods_len in HG; rewrite app_length in HG; cbn in HG; lia|eauto]. }
          destruct Hlen as (es1 & e & Ed). rewrite Ed in *. apply goods_split in HG as (u & v & E & _ & HG). inversion HG as [|? ? t0 ts0 Ho Ht HG'|a' ? ? ts0 Ha HG']; subst; inversion HG'; subst; apply app_inj_tail in E as [-> ->].
          + apply Hl. destruct Ho as (al & ->). exists es1, al. reflexivity.
          + now apply redge_tok in HR'. }
    pose proof (last_rule _ d i H HL eq_refl Hl) as HE. destruct (goods_last _ _ HG Hl) as (es' & al & l & c & Ed & -> & Hgl & Hgc).
    assert (HLe : forall c', (forall k b, ledge k b c' -> ledge k b (LRule i (l ++ [c])) \/ True) -> forall k b, ledge k b (LRule i (l ++ [c'])) -> ledge k b (LRule i (l ++ [c]))).
    { intros c' _ k b HLk. destruct (rule_n i d H HL) as (_ & H2 & _ & H4). destruct l as [|x l].
      - exfalso. inversion Hgl; subst. apply (H2 _ Ed). now exists al.
      - destruct l as [|y l].
        + cbn [app] in *. assert (ET : exists b0, x = LTok b0).
          { inversion Hgl as [|e0 es0 ? ? Ho Hx Hg2|b0 ? ? ? Hb Hg2]; subst; [|eauto]. exfalso. inversion Hg2; subst. exact (H4 [] e0 _ [] Ed Ho (ex_intro _ al eq_refl)). }
          destruct ET as (b0 & ->). exfalso. destruct HLk as (u & us' & HLk & HSk). inversion HLk as [|? ? ? HLk'|]; subst.
          * destruct (starts_token _ _ _ HSk) as (_ & dk & o & e & es & Hk & _ & Edk & Ho & Hb). assert (dk = d) by congruence. subst dk. inversion Hgl as [|e0 es0 ? ? Ho0 Hx Hg2|b1 ? ? ? Hb1 Hg2]; subst; [inversion Hx|]. rewrite Edk in Ed. injection Ed as -> _. eapply operand_low; eauto.
          * inversion HLk'.
        + cbn [app] in *. eapply ledge_first; [exact HLk|]. intros b0 u us' E. injection E as -> -> <-. eauto. }
    assert (HC' : forall c', forall u b us', l ++ [c'] = u :: LTok b :: us' -> starts_with ds i n b -> closed b u).
    { intros c' u b us' E HSb. destruct l as [|x l]; [exfalso; inversion Hgl; subst; destruct (rule_n i d H HL) as (_ & H2 & _); apply (H2 _ Ed); now exists al|].
      destruct l as [|y l].
      - injection E as -> -> <-. exfalso. destruct (starts_token i b n HSb) as (_ & dk & o & e & es & Hk & _ & Edk & Ho & Hb). assert (dk = d) by congruence. subst dk. rewrite Edk in Ed. destruct es' as [|? [|? ?]]; try (inversion Hgl; fail).
        + injection Ed as _ -> _. exact (operand_low ([n], false, al) (ex_intro _ al eq_refl) b Hb).
        + apply goods_len in Hgl. discriminate.
      - injection E as -> -> E. apply (HC u b (l ++ [c])); auto. }
    assert (New : forall c', good c' -> (forall k b, ledge k b c' -> tok_over ds b d) -> good (LRule i (l ++ [c']))).
    { intros c' Hc' HT. apply g_node with (d := d); auto; [| |apply HC'].
      - rewrite Ed. apply goods_app; auto. apply gs_n; auto; [now exists al|constructor].
      - intros l1 c1 E _ k b. apply app_inj_tail in E as [-> ->]. apply HT. }
    assert (Lv : forall c' w, leaves c' = leaves c ++ w -> leaves (LRule i (l ++ [c'])) = leaves (LRule i (l ++ [c])) ++ w).
    { intros c' w E. cbn [leaves]. rewrite !flat_map_app. cbn. now rewrite !app_nil_r, E, app_assoc. }
    destruct (IH l c eq_refl Hl) as [HCl|(c' & Gc' & Lc' & Ec')].
    + destruct (CMP i d j a HE HL HSt) as [HT|HT].
      * right. exists (LRule i (l ++ [LRule j (c :: LTok a :: us)])). splits.
        { apply New; [now apply suffix_good|]. intros k b (u & us' & HLk & HSk). inversion HLk as [|? ? ? HLk'|]; subst; auto. apply (HO l c eq_refl Hl k b). exists u, us'. auto. }
        { apply Lv. reflexivity. }
        { apply HLe. auto. }
      * left. intros k dk ts' HR HEk. destruct (redge_node _ _ _ _ _ HR) as [[-> ->]|HR']; [|eapply HCl; eauto]. destruct HEk as [Hk _]. congruence.
    + right. exists (LRule i (l ++ [c'])). splits; [|now apply Lv|apply HLe; auto]. apply New; auto. intros k b Hk. apply (HO l c eq_refl Hl k b). auto.
  - intros l c E. destruct l; discriminate.
  - intros e es t0 ts Ho Ht IHt HG IH l c E Hl. destruct l as [|x l].
    + injection E as -> ->. exact IHt.
    + injection E as -> ->. destruct es as [|e1 es]; [inversion HG; destruct l; discriminate|]. apply (IH l c eq_refl). now apply lastn_tl in Hl.
  - intros b e es ts Hb HG IH l c E Hl. destruct l as [|x l].
    + injection E as _ ->. inversion HG; subst. exfalso. exact (lastn_token b e Hb Hl).
    + injection E as _ ->. destruct es as [|e1 es]; [inversion HG; destruct l; discriminate|]. apply (IH l c eq_refl). now apply lastn_tl in Hl.
Qed.
Lemma insert_any j a us c : suffix j a us -> good c -> exists c', good c' /\ leaves c' = leaves c ++ a :: flat_map leaves us.
Proof.
  intros HS Hc. destruct (insert j a us HS c Hc) as [H|(c' & H1 & H2 & _)]; [|eauto]. exists (LRule j (c :: LTok a :: us)). split; [now apply suffix_good|reflexivity].
Qed.

(** A tree that starts with a token *)
Definition plainly (c : dtree) : Prop := forall j a, ~ ledge j a c.
Lemma graft pre : (forall c, good c -> plainly c -> exists T, good T /\ leaves T = pre ++ leaves c) -> forall c, good c -> exists T, good T /\ leaves T = pre ++ leaves c.
Proof.
  intros HB. apply (good_ind2 (fun c _ => exists T, good T /\ leaves T = pre ++ leaves c) (fun es ts _ => forall e es' c ts', es = e :: es' -> ts = c :: ts' -> operand n e -> exists T, good T /\ leaves T = pre ++ leaves c)).
  - intros i d ts H HL HG IH HO HC. assert (G0 : good (LRule i ts)) by (econstructor; eauto). destruct (rule_head i d H HL) as [(a & e & es & Ed & Ha)|(a & o & e & es & Ed & Ho & Ha)].
    + apply HB; auto. intros j b (u & us & HLk & HS). inversion HLk as [|? x r HLk'|]; subst.
      * destruct (starts_token _ _ _ HS) as (_ & d' & o & e' & es' & H' & _ & Ed' & Ho & Hb). assert (d' = d) by congruence. subst d'. rewrite Ed in Ed'. injection Ed' as -> ->. eapply operand_low; eauto.
      * rewrite Ed in HG. inversion HG as [|? ? ? ? Ho Hx Hg2|b1 ? ? ? Hb1 Hg2]; subst; [eapply operand_low; eauto|inversion HLk'].
    + pose proof HG as HG'. rewrite Ed in HG'. inversion HG' as [|? ? c ts1 _ Hc Hg2|b1 ? ? ? Hb1 _]; subst; [|exfalso; eapply operand_low; eauto]. inversion Hg2 as [|? ? ? ? Ho' _ _|b1 ? ? ts2 Hb1 Hg3]; subst; [exfalso; eapply operand_low; eauto|].
      assert (b1 = a) by (eapply token_same; eauto). subst b1. destruct (IH _ _ _ _ Ed eq_refl Ho) as (T0 & GT & LT).
      destruct (good_suffix i c a ts2 G0) as (HS & _); [eapply starts_rule; eauto|]. destruct (insert_any i a ts2 T0 HS GT) as (T & G1 & L1). exists T. split; auto. rewrite L1, LT, <- app_assoc. reflexivity.
  - discriminate.
  - intros e es t0 ts Ho Ht IHt HG IH e' es' c ts' E1 E2 Ho'. injection E1 as -> ->. injection E2 as -> ->. auto.
  - intros b e es ts Hb HG IH e' es' c ts' E1 E2 Ho'. injection E1 as -> ->. exfalso. eapply operand_low; eauto.
Qed.

(** ** Every tree has a nested one with the same tokens *)
Lemma renest_rule i d ts : nth_error rules i = Some d -> d_lhs d = n -> goods (d_rhs d) ts -> exists T, good T /\ leaves T = flat_map leaves ts.
Proof.
  intros H HL HG. destruct (rule_head i d H HL) as [(a & e & es & Ed & Ha)|(a & o & e & es & Ed & Ho & Ha)].
  - assert (Hst : forall b, ~ starts_with ds i n b).
    { intros b HS. destruct (starts_token _ _ _ HS) as (_ & d' & o & e' & es' & H' & _ & Ed' & Ho & Hb). assert (d' = d) by congruence. subst d'. rewrite Ed in Ed'. injection Ed' as -> ->. eapply operand_low; eauto. }
    destruct (lastn_dec (d_rhs d)) as [Hl|Hl].
    + destruct (goods_last _ _ HG Hl) as (es' & al & l & c & Ed' & -> & Hgl & Hgc). destruct (graft (flat_map leaves l)) with (c := c) as (T & GT & LT); auto.
      * intros c0 G0 P0. exists (LRule i (l ++ [c0])). split.
        { apply g_node with (d := d); auto.
          - rewrite Ed'. apply goods_app; auto. apply gs_n; auto; [now exists al|constructor].
          - intros l1 c1 E _ k b Hk. apply app_inj_tail in E as [-> ->]. exfalso. now apply (P0 k b).
          - intros u b us _ HS. exfalso. now apply (Hst b). }
        { cbn [leaves]. rewrite flat_map_app. cbn. now rewrite app_nil_r. }
      * exists T. split; auto. rewrite LT, flat_map_app. cbn. now rewrite app_nil_r.
    + exists (LRule i ts). split; auto. apply g_node with (d := d); auto; [intros l c _ Hl'; contradiction|]. intros u b us _ HS. exfalso. now apply (Hst b).
  - pose proof HG as HG'. rewrite Ed in HG'. inversion HG' as [|? ? c0 ts1 _ Hc Hg2|b1 ? ? ? Hb1 _]; subst; [|exfalso; eapply operand_low; eauto]. inversion Hg2 as [|? ? ? ? Ho' _ _|b1 ? ? us Hb1 Hg3]; subst; [exfalso; eapply operand_low; eauto|].
    assert (b1 = a) by (eapply token_same; eauto). subst b1. cbn [flat_map leaves]. destruct (lastn_dec es) as [Hl|Hl].
    + destruct (goods_last _ _ Hg3 Hl) as (es' & al & l & c & Ed' & -> & Hgl & Hgc). destruct (graft (leaves c0 ++ a :: flat_map leaves l)) with (c := c) as (T & GT & LT); auto.
      * intros c1 G1 P1. destruct (insert_any i a (l ++ [c1]) c0) as (T & GT & LT); auto.
        { exists d, o, e, es. splits; auto; [rewrite Ed'; apply goods_app; auto; apply gs_n; auto; [now exists al|constructor]|]. intros l1 x E _ k b Hk. apply app_inj_tail in E as [-> ->]. exfalso. now apply (P1 k b). }
        exists T. split; auto. rewrite LT, flat_map_app. cbn. rewrite app_nil_r, <- app_assoc. reflexivity.
      * exists T. split; auto. rewrite LT, flat_map_app. cbn. rewrite app_nil_r, <- app_assoc. reflexivity.
    + destruct (insert_any i a us c0) as (T & GT & LT); auto; [|eauto]. exists d, o, e, es. splits; auto. intros l x _ Hl'. contradiction.
Qed.
Lemma renest : (forall k w T, tree_of ds k w T -> k = n -> exists T', good T' /\ leaves T' = w) /\
  (forall e w T, elem_tree ds e w T -> (operand n e -> exists T', good T' /\ leaves T' = w) /\ (forall a, is_token ds a e -> w = [a])) /\
  (forall es w Ts, trees_of ds es w Ts -> (forall e, In e es -> operand n e \/ exists a, is_token ds a e) -> exists Ts', goods es Ts' /\ flat_map leaves Ts' = w).
Proof.
  apply tree_of_both.
  - intros a k [U _] ->. exfalso. eapply upper_lower; [exact U|apply (op_low _ _ _ OP)].
  - intros i d w ts H _ IH HL. destruct (rule_n i d H HL) as (_ & _ & H3 & _). destruct (IH H3) as (ts' & HG & <-). eapply renest_rule; eauto.
  - intros k al w T HT IH. split.
    + intros (al' & E). injection E as -> _. auto.
    + intros a (U & HC & al' & E). injection E as -> _. inversion HT as [b ? [_ Hs]|i d ? ts H _]; subst.
      * rewrite HC in Hs. now subst.
      * exfalso. destruct (op_rule _ _ _ OP d (nth_error_In _ _ H)) as [(E & _)|(E & _)]; rewrite E in U.
        { eapply upper_lower; [exact U|]. apply (op_slow _ _ _ OP). }
        { eapply upper_lower; [exact U|apply (op_low _ _ _ OP)]. }
  - intros k al. split; [intros (al' & E); discriminate|intros a (_ & _ & al' & E); discriminate].
  - intros k al w T _ _. split; [intros (al' & E); discriminate|intros a (_ & _ & al' & E); discriminate].
  - intros ns o al a L _. split; [intros (al' & E)|intros b (_ & _ & al' & E)]; injection E as -> _ _; simpl in L; lia.
  - intros _. exists []. split; [constructor|reflexivity].
  - intros e es w1 w2 T Ts _ [IH1 IH2] _ IHs HE. destruct IHs as (Ts' & HG & <-); [intros; apply HE; now right|]. destruct (HE e (or_introl eq_refl)) as [Ho|(a & Ha)].
    + destruct (IH1 Ho) as (T' & HT & <-). exists (T' :: Ts'). split; [now apply gs_n|reflexivity].
    + rewrite (IH2 a Ha). exists (LTok a :: Ts'). split; [now apply gs_t|reflexivity].
Qed.

(** ** Such trees are nested *)
Lemma good_tree : (forall T, good T -> tree_of ds n (leaves T) T) /\ (forall es ts, goods es ts -> trees_of ds es (flat_map leaves ts) ts).
Proof.
  assert (H : forall T (G : good T), tree_of ds n (leaves T) T).
  { apply (good_ind2 (fun T _ => tree_of ds n (leaves T) T) (fun es ts _ => trees_of ds es (flat_map leaves ts) ts)).
    - intros i d ts H HL HG IH _ _. rewrite <- HL. cbn [leaves]. now constructor.
    - constructor.
    - intros e es t ts (al & ->) _ IH _ IHs. cbn. constructor; auto. now constructor.
    - intros a e es ts (U & HC & al & ->) _ IHs. cbn [flat_map leaves]. constructor; auto. constructor. constructor. split; auto. now rewrite HC. }
  split; auto. induction 1 as [|e es t ts (al & ->) Ht _ IH|a e es ts (U & HC & al & ->) _ IH].
  - constructor.
  - cbn. constructor; auto. constructor. auto.
  - cbn [flat_map leaves]. constructor; auto. constructor. constructor. split; auto. now rewrite HC.
Qed.
Lemma goods_at es ts l c r : goods es ts -> ts = l ++ c :: r -> exists es1 e es2, es = es1 ++ e :: es2 /\ List.length es1 = List.length l /\ goods es1 l /\ goods es2 r /\ ((operand n e /\ good c) \/ exists a, is_token ds a e /\ c = LTok a).
Proof.
  intros HG. revert l. induction HG as [|e es t ts Ho Ht HG IH|a e es ts Ha HG IH]; intros l E; destruct l as [|x l]; try discriminate; cbn in E.
  - injection E as -> ->. exists [], e, es. splits; auto. constructor.
  - injection E as -> ->. destruct (IH l eq_refl) as (es1 & e' & es2 & -> & L & G1 & G2 & H). exists (e :: es1), e', es2. cbn. splits; auto. now apply gs_n.
  - injection E as <- ->. exists [], e, es. splits; eauto. constructor.
  - injection E as <- ->. destruct (IH l eq_refl) as (es1 & e' & es2 & -> & L & G1 & G2 & H). exists (e :: es1), e', es2. cbn. splits; auto. now apply gs_t.
Qed.
Lemma occurs_tok i ts w a w' : ~ occurs (LRule i ts) w (LTok a) w'.
Proof. intros H. inversion H. Qed.
Lemma occ_good i ts w T w' : occurs (LRule i ts) w T w' -> good T -> good (LRule i ts).
Proof.
  intros HO. remember (LRule i ts) as u eqn:Eu. induction HO as [|k l c r w' HO IH|c w' HO IH]; intros HG; auto.
  - inversion HG as [? d ? H HL Hgs _ _]; subst. destruct (goods_at _ _ l c r Hgs eq_refl) as (_ & _ & _ & _ & _ & _ & _ & [[_ Hc]|(a & _ & ->)]); auto. now apply occurs_tok in HO.
  - inversion HG.
Qed.
Lemma follow i ts a w T w' : occurs (LRule i ts) (a :: w) T w' -> good T ->
  (w' = a :: w /\ redge (LRule i ts) T) \/ (exists u, closed a u /\ redge (LRule i ts) u) \/
  (exists k dk l1 o e l2, nth_error rules k = Some dk /\ d_rhs dk = l1 ++ o :: e :: l2 /\ l1 <> [] /\ operand n o /\ is_token ds a e).
Proof.
  intros HO. remember (LRule i ts) as v eqn:Ev. remember (a :: w) as aw eqn:Ew. induction HO as [|k l c r w' HO IH|c w' HO IH]; intros HG; [left; split; auto; constructor| |inversion HG]. subst v aw.
  inversion HG as [? d ? H HL Hgs _ HC]; subst. destruct (goods_at _ _ l c r Hgs eq_refl) as (es1 & e & es2 & Ed & L & G1 & G2 & [[Ho Hc]|(b & _ & ->)]); [|exfalso; eapply occurs_tok; eauto].
  destruct (IH Hc) as [[Ew HR]|[H2|H3]]; auto. destruct r as [|c1 r].
  - cbn in Ew. left. split; auto. now constructor.
  - destruct (rule_n k d H HL) as (_ & _ & H3 & H4). rewrite Ed in H3, H4. inversion G2 as [|e1 es3 ? ? Ho1 _ _|b e1 es3 ? Hb G3]; subst; [exfalso; exact (H4 _ _ _ _ eq_refl Ho Ho1)|]. cbn in Ew. injection Ew as -> _.
    destruct l as [|x l].
    + right. left. exists c. split; auto. destruct es1 as [|? ?]; [|discriminate]. cbn in Ed. apply (HC c a r); auto. eapply starts_rule; eauto.
    + right. right. exists k, d, es1, e, e1, es3. splits; auto. intros ->. discriminate.
Qed.
Theorem good_nested r0 d0 T : nth_error rules r0 = Some d0 -> d_lhs d0 = s -> good T -> nested ds (LRule r0 [T]).
Proof.
  intros H0 HL0 HG.
  assert (Sub : forall i ts w, occurs (LRule i ts) w (LRule r0 [T]) [] -> (i = r0 /\ w = []) \/ (occurs (LRule i ts) w T [] /\ good (LRule i ts))).
  { intros i ts w HO. remember (LRule i ts) as u eqn:Eu. remember (LRule r0 [T]) as v eqn:Ev. remember (@nil ident) as z eqn:Ez. destruct HO as [|k l c r w' HO|c w' HO]; [left; split; congruence| |discriminate].
    injection Ev as -> E. destruct l as [|? [|? ?]]; try discriminate. injection E as -> ->. cbn in HO. subst. right. split; auto. eapply occ_good; eauto. }
  constructor.
  - intros i di k l c w j u a us HO [Hi (es & al & Ei)] HL HLe HS. destruct (starts_token _ _ _ HS) as (-> & _). destruct (Sub _ _ _ HO) as [[-> _]|[_ HGi]]; [exfalso; apply (op_new _ _ _ OP); congruence|].
    inversion HGi as [? d ? H HLd Hgs HOv _]; subst. assert (d = di) by congruence. subst d. apply (HOv l c eq_refl) with (j := j); [exists es, al; auto|]. exists u, us. split; auto.
  - intros i di k ts a w j HO HE HS. destruct (starts_token _ _ _ HS) as (-> & dj & oj & ej & lj & Hj & _ & Ej & Hoj & Htj). destruct (Sub _ _ _ HO) as [[_ E]|[HO' _]]; [discriminate|].
    destruct (follow _ _ _ _ _ _ HO' HG) as [[E _]|[(u & HC & HR)|(k & dk & l1 & o & e & l2 & Hk & Ek & N1 & Ho & He)]]; [discriminate|eapply HC; eauto|].
    exfalso. apply N1. exact (op_inner _ _ _ OP _ _ _ _ _ _ _ _ _ _ _ _ Hj Hk Ej Ek Hoj Ho Htj He).
Qed.
Lemma goods_one e ts : operand n e -> goods [e] ts -> exists T, ts = [T] /\ good T.
Proof. intros Ho HG. inversion HG as [|? ? T' ? _ HT' HG'|b ? ? ? Hb _]; subst; [|exfalso; eapply operand_low; eauto]. inversion HG'; subst. eauto. Qed.
(** Every string with a tree has one nested as declared. *)
Theorem renested w T : tree_of ds s w T -> exists T', tree_of ds s w T' /\ nested ds T'.
Proof.
  intros HT. inversion HT as [a k [U _]|i d w0 ts H Hts EL E1 E2]; [exfalso; eapply upper_lower; [exact U|apply (op_slow _ _ _ OP)]|]. clear HT E1 E2. rewrite EL.
  destruct (op_rule _ _ _ OP d (nth_error_In _ _ H)) as [(_ & e & Ed & Ho)|(E & _)]; [|exfalso; apply (op_new _ _ _ OP); congruence].
  destruct (proj2 (proj2 renest) _ _ _ Hts) as (Ts' & HG & <-); [intros e' He'; rewrite Ed in He'; destruct He' as [<- |[]]; auto|].
  rewrite Ed in HG. destruct (goods_one e Ts' Ho HG) as (T' & -> & HT').
  exists (LRule i [T']). split; [|eapply good_nested; eauto]. rewrite <- EL. constructor; auto. rewrite Ed. now apply (proj2 good_tree).
Qed.
End Nest.
