(** The words of the lines of the report (C47). *)
From Coq Require Import DecimalString DecimalNat.
From Verif Require Import Base Syntax BaseFacts FrontEnd First States Actions Spec WfGrammar BuildFacts DeclSpec DeclMore GramFacts FaultSpec Report ReportSpec.
Open Scope string_scope. Open Scope nat_scope. Open Scope list_scope.

Lemma sapp_assoc a b c : (a +++ b) +++ c = a +++ (b +++ c).
Proof. induction a; cbn; congruence. Qed.
Lemma sapp_nil a : a +++ "" = a.
Proof. induction a; cbn; congruence. Qed.
Lemma sapp_ne a b : b <> "" -> a +++ b <> "".
Proof. destruct a; cbn; auto. discriminate. Qed.
Lemma spaceless_app a b : spaceless a -> spaceless b -> spaceless (a +++ b).
Proof. induction a; cbn; tauto. Qed.

Lemma words_run w : spaceless w -> forall v s, words_from v (w +++ s) = words_from (v +++ w) s.
Proof.
  induction w as [|c w IH]; intros HS v s; cbn [String.append]; [now rewrite sapp_nil|]. destruct HS as [Hc HS]. cbn [words_from]. destruct (Ascii.eqb_spec c " "); [contradiction|].
  rewrite IH by auto. f_equal. rewrite sapp_assoc. reflexivity.
Qed.
Lemma words_end w : spaceless w -> w <> "" -> words w = [w].
Proof. intros HS HN. unfold words. rewrite <- (sapp_nil w) at 1. rewrite words_run by auto. cbn. unfold add_word. destruct (String.eqb_spec w ""); [contradiction|reflexivity]. Qed.
Lemma words_cons w s : spaceless w -> w <> "" -> words (w +++ String " " s) = w :: words s.
Proof. intros HS HN. unfold words. rewrite words_run by auto. cbn. unfold add_word. destruct (String.eqb_spec w ""); [contradiction|reflexivity]. Qed.
Lemma words_blank s : words (String " " s) = words s.
Proof. reflexivity. Qed.
Lemma words_blanks n s : words (blanks n +++ s) = words s.
Proof. induction n; cbn [blanks String.append]; auto. Qed.
Lemma words_rpad n w s : words (rpad n w +++ s) = words (w +++ s).
Proof. unfold rpad. now rewrite sapp_assoc, words_blanks. Qed.
(** Blanks at the end of a word that are followed by a blank *)
Lemma words_lpad n w s : spaceless w -> w <> "" -> words (lpad n w +++ String " " s) = w :: words s.
Proof.
  intros HS HN. unfold lpad. rewrite sapp_assoc. destruct (n - String.length w) as [|k]; cbn [blanks String.append]; [now apply words_cons|].
  rewrite words_cons by auto. now rewrite words_blanks.
Qed.

Lemma uint_spaceless u : spaceless (NilEmpty.string_of_uint u).
Proof. induction u; cbn; auto; split; auto; discriminate. Qed.
Lemma num_spaceless n : spaceless (num n).
Proof. apply uint_spaceless. Qed.
Lemma num_ne n : num n <> "".
Proof.
  unfold num. intros H. assert (E : Nat.to_uint n = Decimal.Nil) by (destruct (Nat.to_uint n); auto; discriminate). pose proof (Unsigned.of_to n) as HO. rewrite E in HO. cbn in HO. subst n. discriminate.
Qed.
Lemma num_inj n m : num n = num m -> n = m.
Proof.
  unfold num. intros H. apply (f_equal NilEmpty.uint_of_string) in H. rewrite !NilEmpty.usu in H. injection H as H. now apply Unsigned.to_uint_inj.
Qed.

Section Lines.
Context (g : grammar) (W : wf_grammar g).
Hypothesis SP : forall X, X < List.length (g_syms g) -> spaceless (gname g X).
Hypothesis MN : forall X ms m, kind_at g X = Some (KMulti ms) -> In m ms -> gname g m <> "".
Hypothesis NE : forall X, X < List.length (g_syms g) -> (forall ms, kind_at g X <> Some (KMulti ms)) -> gname g X <> "".

(** A lookahead has a name. *)
Definition named (X : nat) : Prop := X < List.length (g_syms g) /\ gname g X <> "".

Lemma words_act a l : named (a_la a) -> action_line g a = Some l -> words l = gname g (a_la a) ::
  match a_det a with
  | Shift s => ["shift"; num s] | Reduce r => ["reduce"; num r] | Accept => ["accept"] | Error => ["error"]
  | SRConflict r | RRConflict r => "reduce" :: num r :: conflict_mark | SSConflict s => "shift" :: num s :: conflict_mark
  | SHResolved s => "shift" :: num s :: dropped_mark | RDResolved r => "reduce" :: num r :: dropped_mark | NotUsed => []
  end.
Proof.
  intros [HL HN] H. pose proof (SP _ HL) as HS. unfold action_line in H. change (sname g (a_la a)) with (gname g (a_la a)) in H. set (w := gname g (a_la a)) in *.
  assert (T1 : forall n, words (rpad 30 w +++ String " " n) = w :: words n) by (intros n; rewrite words_rpad; now apply words_cons).
  assert (T2 : forall n, words ("shift  " +++ num n) = ["shift"; num n]).
  { intros n. change (words ("shift" +++ String " " (String " " (num n))) = ["shift"; num n]). rewrite words_cons by (repeat split; discriminate). rewrite words_blank, words_end; auto using num_spaceless, num_ne. }
  assert (T3 : forall n, words ("reduce " +++ num n) = ["reduce"; num n]).
  { intros n. change (words ("reduce" +++ String " " (num n)) = ["reduce"; num n]). rewrite words_cons by (repeat split; discriminate). rewrite words_end; auto using num_spaceless, num_ne. }
  assert (T4 : forall n s, words ("shift  " +++ lpad 3 (num n) +++ String " " s) = "shift" :: num n :: words s).
  { intros n s. change (words ("shift" +++ String " " (String " " (lpad 3 (num n) +++ String " " s))) = "shift" :: num n :: words s). rewrite words_cons by (repeat split; discriminate). rewrite words_blank, words_lpad; auto using num_spaceless, num_ne. }
  assert (T5 : forall n s, words ("reduce " +++ lpad 3 (num n) +++ String " " s) = "reduce" :: num n :: words s).
  { intros n s. change (words ("reduce" +++ String " " (lpad 3 (num n) +++ String " " s)) = "reduce" :: num n :: words s). rewrite words_cons by (repeat split; discriminate). rewrite words_lpad; auto using num_spaceless, num_ne. }
  destruct (a_det a); try discriminate; injection H as <-; cbn [String.append]; rewrite T1; f_equal.
  all: first [exact (T2 _) | exact (T3 _) | exact (T4 _ "** Parsing conflict **") | exact (T5 _ "** Parsing conflict **") | exact (T4 _ "-- dropped by precedence") | exact (T5 _ "-- dropped by precedence") | reflexivity].
Qed.

Lemma alts_text ms : ms <> [] -> alts g true ms = " " +++ String.concat "|" (map (gname g) ms).
Proof.
  destruct ms as [|m ms]; [contradiction|]. intros _. cbn [alts]. f_equal. change (sname g m) with (gname g m). revert m. induction ms as [|k ms IH]; intros m; cbn [alts map String.concat]; [now rewrite sapp_nil|].
  change (sname g k) with (gname g k). rewrite IH. reflexivity.
Qed.
Lemma concat_spaceless l : Forall (fun w => spaceless w /\ w <> "") l -> l <> [] -> spaceless (String.concat "|" l) /\ String.concat "|" l <> "".
Proof.
  induction l as [|w l IH]; [contradiction|]. intros HF _. inversion HF as [|? ? [HS HN] HF']; subst. destruct l as [|v l]; [now cbn|]. destruct IH as [I1 I2]; auto; [discriminate|]. cbn [String.concat]. split.
  - apply spaceless_app; auto. apply spaceless_app; auto. cbn. split; auto. discriminate.
  - destruct w; [contradiction|discriminate].
Qed.

Definition elem_text (X : nat) : string := match sy_kind (gsym g X) with KMulti ms => alts g true ms | _ => " " +++ sname g X end.
Lemma shown_ok X : X < List.length (g_syms g) -> Forall (fun w => spaceless w /\ w <> "") (shown g X) /\ (shown g X = [] /\ elem_text X = "" \/ exists w, shown g X = [w] /\ elem_text X = " " +++ w).
Proof.
  intros HX. unfold shown, elem_text. pose proof (gsym_kind_at g X HX) as K. rewrite K. destruct (sy_kind (gsym g X)) as [| |ms] eqn:EK.
  - split; [|right; eexists; split; reflexivity]. repeat constructor; auto. apply NE; auto. rewrite K. discriminate.
  - split; [|right; eexists; split; reflexivity]. repeat constructor; auto. apply NE; auto. rewrite K. discriminate.
  - destruct ms as [|m ms]; [split; [constructor|left; auto]|]. assert (HM : forall x, In x (m :: ms) -> spaceless (gname g x) /\ gname g x <> "").
    { intros x Hx. destruct (wg_multi g W X (m :: ms) x K Hx) as (Lx & _). split; eauto. }
    split.
    + repeat constructor; apply concat_spaceless; try discriminate; apply Forall_forall; intros w Hw; apply in_map_iff in Hw as (x & <- & Hx); auto.
    + right. eexists. split; [reflexivity|]. apply alts_text. discriminate.
Qed.
(** A text of words each with a blank in front *)
Fixpoint spaced (ws : list string) : string := match ws with [] => "" | w :: ws => " " +++ w +++ spaced ws end.
Lemma spaced_app l m : spaced (l ++ m) = spaced l +++ spaced m.
Proof. induction l as [|w l IH]; cbn [app spaced]; auto. rewrite IH. cbn. now rewrite !sapp_assoc. Qed.
Lemma words_spaced l : Forall (fun w => spaceless w /\ w <> "") l -> forall w, spaceless w -> w <> "" -> words (w +++ spaced l) = w :: l.
Proof.
  induction 1 as [|v l [HS HN] HF IH]; intros w Sw Nw; cbn [spaced]; [rewrite sapp_nil; now apply words_end|]. cbn [String.append]. rewrite words_cons by auto. f_equal. now apply IH.
Qed.
Lemma rhs_spaced dot : forall rhs i, Forall (fun q => fst q < List.length (g_syms g)) rhs ->
  rhs_text g i dot rhs = spaced (if (dot <? i) || (i + List.length rhs <=? dot) then flat_map (shown g) (map fst rhs)
    else flat_map (shown g) (firstn (dot - i) (map fst rhs)) ++ "*" :: flat_map (shown g) (skipn (dot - i) (map fst rhs))).
Proof.
  induction rhs as [|[X al] rhs IH]; intros i HF; inversion HF as [|? ? HX HF']; subst.
  - cbn [rhs_text List.length map]. rewrite Nat.add_0_r. destruct (Nat.ltb_spec dot i), (Nat.leb_spec i dot); try lia; reflexivity.
  - cbn [rhs_text List.length map flat_map fst]. fold (elem_text X). cbn [fst] in HX. destruct (shown_ok X HX) as [_ HE].
    assert (EX : elem_text X = spaced (shown g X)) by (destruct HE as [[-> ->]|(w & -> & ->)]; cbn [spaced]; [reflexivity|now rewrite sapp_nil]).
    rewrite EX, IH by auto. replace (S i + List.length rhs) with (i + S (List.length rhs)) by lia. destruct (Nat.eqb_spec i dot) as [<-|N].
    + replace (i <? S i) with true by (symmetry; apply Nat.ltb_lt; lia). replace (i <? i) with false by (symmetry; apply Nat.ltb_ge; lia). replace (i + S (List.length rhs) <=? i) with false by (symmetry; apply Nat.leb_gt; lia).
      cbn [orb]. rewrite Nat.sub_diag. cbn [firstn skipn flat_map app]. change (spaced ("*" :: shown g X ++ flat_map (shown g) (map fst rhs))) with (" *" +++ spaced (shown g X ++ flat_map (shown g) (map fst rhs))). now rewrite spaced_app.
    + replace (dot <? S i) with (dot <? i) by (apply eq_true_iff_eq; rewrite !Nat.ltb_lt; lia). cbn [String.append]. rewrite <- spaced_app. f_equal.
      destruct ((dot <? i) || (i + S (List.length rhs) <=? dot)) eqn:EB; [reflexivity|]. apply orb_false_iff in EB as [B1 B2]. apply Nat.ltb_ge in B1. replace (dot - i) with (S (dot - S i)) by lia. cbn [firstn skipn flat_map]. now rewrite app_assoc.
Qed.

Lemma words_item c : c_rule c < List.length (g_rules g) -> c_dot c <= List.length (r_rhs (grule g (c_rule c))) -> words (item_line g c) = item_words g (c_rule c) (c_dot c).
Proof.
  intros HR HD. set (ru := grule g (c_rule c)) in *. assert (Hru : nth_error (g_rules g) (c_rule c) = Some ru) by (now apply nth_error_nth').
  assert (HF : Forall (fun q => fst q < List.length (g_syms g)) (r_rhs ru)).
  { apply Forall_forall. intros [X al] HX. destruct (wg_rule g W _ _ Hru) as (_ & _ & HQ). exact (proj1 (HQ _ _ HX)). }
  assert (HS : Forall (fun w => spaceless w /\ w <> "") (flat_map (shown g) (firstn (c_dot c) (map fst (r_rhs ru))) ++ "*" :: flat_map (shown g) (skipn (c_dot c) (map fst (r_rhs ru))))).
  { assert (HA : forall l, incl l (map fst (r_rhs ru)) -> Forall (fun w => spaceless w /\ w <> "") (flat_map (shown g) l)).
    { intros l HI. apply Forall_forall. intros w Hw. apply in_flat_map in Hw as (X & HX & Hw). apply HI, in_map_iff in HX as ([X' al] & E & HX). cbn in E. subst X'. rewrite Forall_forall in HF. specialize (HF _ HX). cbn in HF.
      destruct (shown_ok X HF) as [HQ _]. rewrite Forall_forall in HQ. auto. }
    apply Forall_app. split; [apply HA; intros x Hx; rewrite <- (firstn_skipn (c_dot c)); apply in_app_iff; auto|]. constructor; [repeat split; discriminate|]. apply HA. intros x Hx. rewrite <- (firstn_skipn (c_dot c)). apply in_app_iff. auto. }
  destruct (wg_rule g W _ _ Hru) as (KL & _ & _). assert (HL : r_lhs ru < List.length (g_syms g)) by (unfold kind_at in KL; destruct (nth_error (g_syms g) (r_lhs ru)) eqn:E; [apply nth_error_Some; congruence|discriminate]).
  assert (NL : gname g (r_lhs ru) <> "") by (apply NE; auto; rewrite KL; discriminate).
  unfold item_line, item_words. fold ru. rewrite map_length. change (sname g (r_lhs ru)) with (gname g (r_lhs ru)).
  assert (ER : rhs_text g 0 (c_dot c) (r_rhs ru) +++ (if c_dot c =? List.length (r_rhs ru) then " *" else "") = spaced (flat_map (shown g) (firstn (c_dot c) (map fst (r_rhs ru))) ++ "*" :: flat_map (shown g) (skipn (c_dot c) (map fst (r_rhs ru))))).
  { rewrite rhs_spaced by auto. cbn [Nat.ltb Nat.leb orb Nat.add]. replace (c_dot c <? 0) with false by reflexivity. cbn [orb]. rewrite Nat.sub_0_r. destruct (Nat.eqb_spec (c_dot c) (List.length (r_rhs ru))) as [E|N].
    - rewrite E, Nat.leb_refl. replace (List.length (r_rhs ru)) with (List.length (map fst (r_rhs ru))) by apply map_length. rewrite firstn_all, skipn_all. cbn [flat_map]. rewrite spaced_app. reflexivity.
    - replace (List.length (r_rhs ru) <=? c_dot c) with false by (symmetry; apply Nat.leb_gt; lia). apply sapp_nil. }
  rewrite ER. set (tail := flat_map (shown g) (firstn (c_dot c) (map fst (r_rhs ru))) ++ "*" :: flat_map (shown g) (skipn (c_dot c) (map fst (r_rhs ru)))) in *.
  assert (EW : words (gname g (r_lhs ru) +++ " ::=" +++ spaced tail) = gname g (r_lhs ru) :: "::=" :: tail).
  { change (words (gname g (r_lhs ru) +++ String " " ("::=" +++ spaced tail)) = gname g (r_lhs ru) :: "::=" :: tail). rewrite words_cons by auto. f_equal. apply words_spaced; auto; [repeat split; discriminate|discriminate]. }
  destruct (c_dot c =? List.length (r_rhs ru)).
  - change ("    " +++ rpad 5 ("(" +++ num (c_rule c) +++ ")") +++ " ") with (blanks 4 +++ rpad 5 ("(" +++ num (c_rule c) +++ ")") +++ " "). rewrite !sapp_assoc, words_blanks, words_rpad. cbn [app].
    change (" " +++ gname g (r_lhs ru) +++ " ::=" +++ spaced tail) with (String " " (gname g (r_lhs ru) +++ " ::=" +++ spaced tail)). rewrite words_cons; [now rewrite EW| |discriminate].
    apply (spaceless_app "(" (num (c_rule c) +++ ")")); [repeat split; discriminate|]. apply spaceless_app; [apply num_spaceless|repeat split; discriminate].
  - rewrite words_blanks, EW. reflexivity.
Qed.
End Lines.
