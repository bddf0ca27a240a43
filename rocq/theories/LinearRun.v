(** A whole parse costs at most a constant for every token (C45). *)
From Verif Require Import Base Syntax BaseFacts FrontEnd First States Actions Tables Runtime
  PackFacts Spec WfGrammar FirstFacts ClosureFacts AutoFacts LalrFacts ActFacts CompFacts GroupFacts
  TabFacts LookFacts PipeFacts RunFacts SoundFacts SafeFacts AbsFacts HaltFacts TermFacts LimitFacts LimitRun LinearFacts.

Section Linear.
Context (g : grammar) (p p3 p4 : pst) (t : tables) (P : Pipe g p p3 p4 t).
Let W := pp_wf _ _ _ _ _ P.
Let A := pp_aut _ _ _ _ _ P.
Notation ns := (List.length (p_states p)).
Notation nr := (List.length (g_rules g)).
Notation num := (state_num g p4).
Notation aspine := (aspine g p unit).
Notation size pp := (List.length (ps_log pp)).
Notation height pp := (List.length (ps_stack pp)).

Section Hooks.
Context {M X E R : Type} (h : hooks M X E R).
Notation spine := (spine g p p4 (M := M)).
Context (K T : nat -> M -> Prop) (HK : hooks_ok g t h K T).
Notation safe := (safe g p p4 (M := M) (X := X) (R := R) K).
Notation on_track := (on_track g p p4 (M := M) (X := X) (R := R) K).

Definition costs {B} (i : nat) (c' : list (nat * tree unit)) (fuel : nat) (pp : parser M X R) (r : res M X E R B) : Prop :=
  match r with
  | ROk _ p1 | RErr _ p1 => size pp + i <= size p1 /\ size p1 + height p1 <= size pp + i + S (List.length c') + 4
  | RFuel => fuel <= S i
  | RPanic => True
  end.
Lemma cheap_costs {B} k fuel c' pp (r : res M X E R B) : k <= 4 -> height pp <= S (List.length c') -> r <> RFuel -> cheap k pp r -> costs 0 c' fuel pp r.
Proof. intros Hk Hh Hr. destruct r; cbn [cheap costs]; auto; try lia. contradiction. Qed.

Lemma token_costs a m : tok_ok g T a m -> forall fuel (pp : parser M X R) st Xs s bot c, ps_status pp = Normal ->
  spine st Xs s -> ps_stack pp = st ++ [bot] -> e_state bot = num 0 -> typed_stack K st Xs -> aspine c Xs ->
  exists i n c', run g p 0 n i c c' /\ (t_limit t <> 0 -> n <= t_limit t) /\ costs i c' fuel pp (parse_token_2 fuel t h pp a m).
Proof.
  intros Htok. induction fuel as [|fuel IH]; intros pp st Xs s bot c Hn Hsp Est Hb Ht Hc; [exists 0, 0, c; splits; [constructor|lia|cbn; lia]|].
  assert (Hh : height pp = S (List.length c)).
  { rewrite Est, app_length. pose proof (spine_len g p p4 _ _ _ Hsp). apply aspine_len in Hc. cbn. lia. }
  rewrite parse_token_2_S, Hn.
  destruct (spine_top g p p4 st Xs s bot Hsp Hb) as (tp & rest & Et & Etop). rewrite Est, Et, Etop.
  destruct (shift_answer g p p3 p4 t P s a (spine_range g p p3 p4 t P _ _ _ Hsp) (tok_ok_tokenish g p p3 p4 t P T _ _ Htok)) as (ac & Ea0 & HA).
  rewrite Ea0. clear Ea0.
  rewrite (t_ns g p p3 p4 t P), (t_nr g p p3 p4 t P). inversion HA as [Y q Hq Hm Hz Ea|r b Hl Hz Ea|Ea]; subst ac.
  - pose proof (num_lt g p p3 p4 t P q (proj1 (au_edge g p A _ _ _ Hq))) as Hlt. apply Nat.ltb_lt in Hlt. rewrite Hlt.
    exists 0, 0, c. splits; [constructor|lia|]. destruct (a =? 0); [exact I|]. pose proof (shift_cheap t h pp (num q) a m) as HS.
    destruct (yy_shift_cases t h pp (num q) a m) as [E1|(e & pp' & E1)]; rewrite E1 in HS |- *; cbn [rbind].
    + cbn [cheap costs] in *. cbn [set_count set_stack log ps_log ps_stack List.length] in *. lia.
    + cbn [cheap costs] in *. lia.
  - replace (ns + r <? ns) with false by (symmetry; apply Nat.ltb_ge; lia).
    pose proof (look_item p _ _ _ Hl) as Hi. pose proof (item_rule g p p3 p4 t P _ _ _ Hi) as Hr.
    replace (ns + r <? ns + nr) with true by (symmetry; apply Nat.ltb_lt; lia). replace (ns + r - ns) with r by lia.
    destruct (yy_reduce_eq g p p3 p4 t P h pp r st Xs s bot Hsp Est Hb Hi) as (st1 & st2 & Xs1 & Xs2 & s0 & -> & -> & L & HX & Hs & HC).
    destruct (forall2_app_inv _ _ _ _ _ (eq_sym L) Ht) as [Ht1 Ht2].
    assert (HV : Forall2 K (map fst (r_rhs (grule g r))) (rev (map e_minor st1))).
    { rewrite <- HX. apply forall2_rev. clear -Ht1. induction Ht1; simpl; constructor; auto. }
    destruct (hk_red _ _ _ K T HK r _ (ps_extra pp) Hr HV) as (x' & ve & Eh & Hv).
    rewrite Est, !app_length in Hh. cbn [List.length] in Hh.
    destruct HC as [(Hst & -> & -> & Hy)|(Hst & q & Hq & Hy)]; rewrite Hy, Eh.
    { exists 0, 0, c. splits; [constructor|lia|]. destruct ve as [v|e]; [|cbn; rewrite ?app_length in *; cbn [List.length] in *; lia].
      destruct (h_accept h v) as [root|]; [|exact I]. destruct fuel; cbn; lia. }
    destruct ve as [v|e]; [|exists 0, 0, c; splits; [constructor|lia|]; cbn; rewrite app_length; cbn [List.length] in *; lia]. specialize (Hv v eq_refl).
    unfold yy_shift. cbn [after_reduce set_stack set_extra log ps_stack].
    destruct (negb (t_limit t =? 0) && (t_limit t <=? _)) eqn:ELim.
    { exists 0, 0, c. splits; [constructor|lia|]. destruct (h_overflow _ _ _ _). cbn. rewrite app_length. cbn [List.length]. lia. }
    cbn [rbind].
    assert (HLim : t_limit t <> 0 -> List.length (st2 ++ [bot]) < t_limit t).
    { intros HL. apply andb_false_iff in ELim as [E0|E0]; [apply negb_false_iff, Nat.eqb_eq in E0; contradiction|].
      apply Nat.leb_gt in E0. exact E0. }
    destruct (aspine_split g p _ _ _ Hc) as (c1 & c2 & -> & Lc & Hc2).
    assert (Et2 : top unit c2 = s0).
    { eapply (path_fun g p A); [eapply aspine_path; eauto|eapply spine_path; eauto]. }
    assert (Et1 : top unit (c1 ++ c2) = s).
    { eapply (path_fun g p A); [eapply aspine_path; eauto|eapply spine_path; eauto]. }
    match goal with |- context[parse_token_2 _ _ _ ?p1 _ _] => set (pp1 := p1) in * end.
    destruct (IH pp1 (mkEntry (num q) (r_lhs (grule g r)) v :: st2) (r_lhs (grule g r) :: Xs2) q bot
                ((q, TNode r (rev (map snd c1))) :: c2)) as (i & n & c' & Hch & Hle & HCo); auto.
    + econstructor; eauto.
    + constructor; auto.
    + constructor; auto. now rewrite Et2.
    + assert (Hlen : List.length c2 = List.length st2) by (pose proof (spine_len g p p4 _ _ _ Hs); apply aspine_len in Hc2; lia).
      exists (S i), (max n (S (List.length c2))), c'. splits.
      * apply run_S with (b := b) (c' := (q, TNode r (rev (map snd c1))) :: c2).
        -- constructor; auto.
           ++ rewrite Et1. constructor; auto. pose proof Hl as Hl'. apply (au_look g p A) in Hl'. destruct (spread_lr1 g p A _ _ _ Hl') as (gamma & _ & L1).
              eapply lr1_lt; eauto. apply (pp_flat _ _ _ _ _ P).
           ++ rewrite Lc. apply (f_equal (@List.length nat)) in HX. rewrite rev_length, map_length in HX. exact HX.
           ++ now rewrite Et2.
        -- cbn [List.length]. lia.
        -- cbn [List.length]. lia.
        -- eapply run_wider; [|exact Hch]. lia.
      * intros HL. specialize (Hle HL). specialize (HLim HL). rewrite app_length in HLim. cbn [List.length] in HLim. lia.
      * assert (E1 : size pp1 = S (size pp)) by reflexivity. unfold costs in HCo |- *. rewrite E1 in HCo.
        destruct (parse_token_2 fuel t h pp1 a m); auto; lia.
  - replace (ns + nr <? ns) with false by (symmetry; apply Nat.ltb_ge; lia). rewrite Nat.ltb_irrefl, Nat.eqb_refl.
    assert (Hot : on_track pp) by (exists st, Xs, s, bot; auto).
    pose proof (syntax_error_safe g p p3 p4 t P h K T HK (num s) a m pp Hn Hot) as HS. exists 0, 0, c. splits; [constructor|lia|].
    eapply (cheap_costs 4); [lia|lia| |apply error_cheap]. intros Hf. rewrite Hf in HS. contradiction.
Qed.

(** ** The bound for one call, and for a whole parse *)
Context (C J : nat) (ok : nat -> Prop) (HB : level_bound g p C J ok) (Hok : forall n, (t_limit t <> 0 -> n <= t_limit t) -> ok n).
Definition weight (pp : parser M X R) : nat := size pp + S C * height pp.
Definition per_call : nat := S C * (J + 6).

Lemma pay c x s z u : s + x <= z -> z + u <= s + x + S c -> forall k, 1 <= k -> z + k * u <= s + x + k * S c.
Proof. intros H1 H2 k Hk. assert (z + k * u = s + x + (z - s - x) + k * u) by lia. assert (u + (z - s - x) <= S c) by lia.
  assert (k * (u + (z - s - x)) <= k * S c) by (now apply Nat.mul_le_mono_l). rewrite Nat.mul_add_distr_l in *. nia. Qed.

Theorem token_linear fuel (pp : parser M X R) a m : safe pp -> tok_ok g T a m ->
  match parse_token fuel t h pp a m with
  | ROk _ p1 | RErr _ p1 => weight p1 <= weight pp + per_call
  | RFuel => fuel <= S (S C * S (height pp))
  | RPanic => False
  end.
Proof.
  intros [Hn (st & Xs & s & bot & Hsp & Est & Hb & Ht)] Htok. destruct (spine_abs g p p3 p4 t P _ _ _ Hsp) as [c Hc].
  assert (Hot : on_track pp) by (exists st, Xs, s, bot; auto).
  pose proof (parse_token_safe g p p3 p4 t P h K T HK fuel pp a m (conj Hn Hot) Htok) as HS.
  destruct (token_costs a m Htok fuel pp st Xs s bot c Hn Hsp Est Hb Ht Hc) as (i & n & c' & Hr & Hle & HC).
  destruct (level_count g p A C J ok HB (List.length c) n i c Xs c' (le_n _) Hc (Hok n Hle) Hr) as (lo & Hlo & Hc' & Hi).
  assert (Hh : height pp = S (List.length c)).
  { rewrite Est, app_length. pose proof (spine_len g p p4 _ _ _ Hsp). apply aspine_len in Hc. cbn. lia. }
  assert (HW : forall p1 : parser M X R, size pp + i <= size p1 /\ size p1 + height p1 <= size pp + i + S (List.length c') + 4 -> weight p1 <= weight pp + per_call).
  { intros p1 [H1 H2]. unfold weight, per_call. pose proof (pay (List.length c' + 4) i (size pp) (size p1) (height p1) H1 ltac:(lia) (S C) ltac:(lia)).
    rewrite Hh. assert (S C * S (List.length c' + 4) <= S C * (lo + J + 5)) by (apply Nat.mul_le_mono_l; lia).
    assert (S C * S (List.length c - lo) + S C * (lo + J + 5) <= S C * S (List.length c) + S C * (J + 6)).
    { rewrite <- !Nat.mul_add_distr_l. apply Nat.mul_le_mono_l. lia. } lia. }
  unfold parse_token in *. rewrite Hn in *. destruct (parse_token_2 fuel t h pp a m) as [u p1|e p1| |]; cbn [costs] in HC; auto.
  rewrite Hh. assert (S C * S (List.length c - lo) <= S C * S (S (List.length c))) by (apply Nat.mul_le_mono_l; lia). lia.
Qed.

Lemma all_linear fuel ts : forall pp : parser M X R, safe pp -> input_ok g T ts ->
  match parse_all fuel t h pp ts with
  | ROk _ p1 => safe p1 /\ weight p1 <= weight pp + List.length ts * per_call
  | RErr _ p1 => weight p1 <= weight pp + List.length ts * per_call
  | RFuel => fuel <= 2 * S C + weight pp + List.length ts * per_call
  | RPanic => False
  end.
Proof.
  induction ts as [|[a m] ts IH]; intros pp Hs Hts; cbn [parse_all List.length]; [split; auto; lia|].
  pose proof (Hts a m (or_introl eq_refl)) as Ha.
  pose proof (parse_token_safe g p p3 p4 t P h K T HK fuel pp a m Hs (or_intror Ha)) as HT.
  pose proof (token_linear fuel pp a m Hs (or_intror Ha)) as HL.
  destruct (parse_token fuel t h pp a m) as [[] p1|e p1| |] eqn:E1; cbn [rbind]; try contradiction.
  - destruct HT as [[Hz _]|[_ HT]]; [lia|]. specialize (IH p1 HT ltac:(intros a' m' Hin; apply Hts; now right)). cbn [Nat.mul].
    destruct (parse_all fuel t h p1 ts) as [[] p2|e p2| |]; auto; [destruct IH; split; auto; lia|lia|lia].
  - cbn [Nat.mul]. lia.
  - unfold weight. rewrite Nat.mul_succ_r in HL. cbn [Nat.mul]. lia.
Qed.

Theorem run_linear fuel x ts : input_ok g T ts ->
  match Runtime.run fuel t h x ts with
  | ROk _ p1 | RErr _ p1 => weight p1 <= S C + S (List.length ts) * per_call
  | RFuel => fuel <= 3 * S C + S (List.length ts) * per_call
  | RPanic => False
  end.
Proof.
  intros Hts. unfold Runtime.run. pose proof (all_linear fuel ts (new_parser h x) (new_safe g p p3 p4 t P h K x) Hts) as HA.
  assert (E0 : weight (new_parser h x) = S C) by (unfold weight; cbn [new_parser ps_log ps_stack List.length]; lia). rewrite E0 in HA.
  destruct (parse_all fuel t h (new_parser h x) ts) as [[] p1|e p1| |]; cbn [rbind]; try (cbn [Nat.mul]; lia).
  destruct HA as [Hs HA]. pose proof (token_linear fuel p1 0 (h_unit h) Hs (or_introl eq_refl)) as HL.
  pose proof (end_safe g p p3 p4 t P h K T HK fuel p1 Hs) as HE. unfold end_of_input in *.
  destruct (parse_token fuel t h p1 0 (h_unit h)) as [[] p2|e p2| |]; cbn [rbind] in *; try contradiction.
  - destruct (ps_status p2); try contradiction. cbn [Nat.mul]. lia.
  - cbn [Nat.mul]. lia.
  - unfold weight in HA. rewrite Nat.mul_succ_r in HL. cbn [Nat.mul]. lia.
Qed.
End Hooks.

(** One constant for all inputs, all user code and all extra values *)
Theorem linear_constant (NC : forall s Z, ~ ups g p s Z Z) (HL : t_limit t <> 0 \/ forall Z, ~ gpath g true Z Z) :
  exists k, forall M X E R (h : hooks M X E R) K T, hooks_ok g t h K T -> forall n x ts, input_ok g T ts ->
    (match parse_all n t h (new_parser h x) ts with
     | ROk _ p1 | RErr _ p1 => size p1 + height p1 <= k * S (List.length ts)
     | _ => n <= k * S (List.length ts) end) /\
    (match Runtime.run n t h x ts with
     | ROk _ p1 | RErr _ p1 => size p1 <= k * S (List.length ts)
     | _ => n <= k * S (List.length ts) end).
Proof.
  assert (HB : exists C J ok, level_bound g p C J ok /\ forall n, (t_limit t <> 0 -> n <= t_limit t) -> ok n).
  { destruct HL as [HL0|NH].
    - destruct (bound_limit g W p A NC (t_limit t)) as (C & HC). exists C, (t_limit t), (fun n => n <= t_limit t). auto.
    - destruct (bound_open g W p A NC NH) as (C & HC). exists C, (room g), (fun _ => True). auto. }
  destruct HB as (C & J & ok & HB & Hok). exists (3 * S C + per_call C J).
  intros M X E R h K T HK n x ts Hts. 
  assert (Hk : 3 * S C + S (List.length ts) * per_call C J <= (3 * S C + per_call C J) * S (List.length ts)).
  { rewrite Nat.mul_add_distr_r, (Nat.mul_comm (S (List.length ts))). assert (3 * S C * 1 <= 3 * S C * S (List.length ts)) by (apply Nat.mul_le_mono_l; lia). lia. }
  split.
  - pose proof (all_linear h K T HK C J ok HB Hok n ts (new_parser h x) (new_safe g p p3 p4 t P h K x) Hts) as HA.
    assert (E0 : weight C (new_parser h x) = S C) by (unfold weight; cbn [new_parser ps_log ps_stack List.length]; lia). rewrite E0 in HA.
    assert (HW : forall p1 : parser M X R, size p1 + height p1 <= weight C p1) by (intros p1; unfold weight; cbn [Nat.mul]; lia).
    destruct (parse_all n t h (new_parser h x) ts) as [[] p1|e p1| |]; [|pose proof (HW p1)|contradiction|]; try (cbn [Nat.mul] in *; lia).
    destruct HA as [_ HA]. pose proof (HW p1). cbn [Nat.mul] in *; lia.
  - pose proof (run_linear h K T HK C J ok HB Hok n x ts Hts) as HA. unfold weight in HA.
    destruct (Runtime.run n t h x ts) as [u p1|e p1| |]; [| |contradiction|]; cbn [Nat.mul] in *; lia.
Qed.
End Linear.
