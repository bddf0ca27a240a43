(** C20, C21: what happens on a wrong token in a grammar that does not use the error symbol. *)
From Verif Require Import Base Syntax BaseFacts FrontEnd Tables Runtime User Spec RunFacts RunMore DeclSpec TypeDecl Main DeclMore Claims3 Claims4.
Open Scope string_scope. Open Scope nat_scope. Open Scope list_scope.

(** Logs, latest event first.  Tokens shifted since the last wrong token; [None] if there was none *)
Fixpoint since_wrong (l : list event) : option nat :=
  match l with
  | [] => None
  | EvDrop _ :: _ => Some 0
  | EvShift _ :: l' => option_map S (since_wrong l')
  | _ :: l' => since_wrong l'
  end.
(** There was no wrong token before, or three tokens have been shifted since *)
Definition calm (l : list event) : Prop := forall n, since_wrong l = Some n -> 3 <= n.
(** A wrong token is reported exactly when it is the first one or three tokens have been shifted since the last. *)
Definition reported_right (e : event) (before : list event) : Prop :=
  match e with
  | EvSyntaxError _ => calm before
  | EvDrop a => match before with EvSyntaxError a' :: _ => a = a' | _ => ~ calm before end
  | _ => True
  end.
Fixpoint all_reported_right (l : list event) : Prop := match l with [] => True | e :: l' => reported_right e l' /\ all_reported_right l' end.

Section Machine.
Context {M X E R : Type} (t : tables) (h : hooks M X E R).
Notation prs := (parser M X R).
Definition counted (p : prs) : Prop :=
  all_reported_right (ps_log p) /\ match ps_log p with EvSyntaxError _ :: _ => False | _ => True end /\
  match since_wrong (ps_log p) with None => ps_count p = 0 | Some n => ps_count p = 3 - n end.
Notation right := (rpost counted (fun _ p => all_reported_right (ps_log p))).

Lemma shift_right p q a m : rpost (fun p' => ps_log p' = ps_log p /\ ps_count p' = ps_count p)
  (fun _ p' => exists e, ps_log p' = e :: ps_log p /\ reported_right e (ps_log p)) (yy_shift t h p q a m).
Proof.
  unfold yy_shift. destruct (_ && _); [|cbn; auto]. destruct (h_overflow h a m (ps_extra p)). cbn. eexists. split; [reflexivity|exact I].
Qed.
Lemma reduce_right p r : counted p -> right (yy_reduce t h p r).
Proof.
  intros (H1 & H2 & H3). unfold yy_reduce. destruct (nth_error (t_rules t) r) as [rr|]; [|exact I].
  destruct (pop_n _ _ _) as [[vals rest]|]; [|exact I].
  destruct (h_reduce h r vals (ps_extra p)) as [[x [v|e]]|]; [|split; [exact I|exact H1]|exact I].
  destruct rest as [|top rest]; [exact I|]. destruct (find_reduce_action t (e_state top) (rr_lhs rr)); try exact I.
  destruct (a <? t_nstate t).
  - eapply rpost_imp; [apply shift_right| |].
    + intros p' [L C]. unfold counted. rewrite L, C. cbn. auto.
    + intros e p' (ev & L & HR). rewrite L. cbn. auto.
  - destruct (_ =? _); [|exact I]. destruct (h_accept h v); [|exact I]. unfold counted. cbn. auto.
Qed.
Lemma token_2_right n : t_err t = 0 -> forall p a m, counted p -> right (parse_token_2 n t h p a m).
Proof.
  intros He. induction n as [|n IH]; intros p a m Hq; cbn [parse_token_2]; [exact I|].
  destruct (ps_status p); try exact Hq. destruct (ps_stack p) as [|top rest] eqn:Es; [exact I|].
  destruct (find_shift_action t (e_state top) a); try exact I. destruct (a0 <? t_nstate t).
  - destruct (a =? 0); [exact I|]. destruct Hq as (H1 & H2 & H3). pose proof (shift_right p a0 a m) as HS.
    destruct (yy_shift t h p a0 a m) as [[] p'|e p'| |]; cbn [rpost rbind] in *; auto.
    + destruct HS as [L C]. unfold counted. cbn [ps_log ps_count log set_count]. rewrite L, C. cbn [all_reported_right reported_right since_wrong]. splits; auto. destruct (since_wrong (ps_log p)); cbn [option_map]; lia.
    + destruct HS as (ev & L & HR). rewrite L. cbn. auto.
  - destruct (a0 <? _).
    + eapply rpost_bind; [apply reduce_right; exact Hq|]. intros; now apply IH.
    + destruct (a0 =? _); [|exact I]. destruct Hq as (H1 & H2 & H3). unfold syntax_error.
      destruct (a =? 0). { unfold yy_parse_failed. destruct (h_fail h (ps_extra p)). cbn. auto. }
      rewrite He. cbn [Nat.eqb negb].
      assert (HC : ps_count p = 0 <-> calm (ps_log p)).
      { unfold calm. destruct (since_wrong (ps_log p)) as [k|]; split; intros H; try discriminate; auto; [intros k' [= <-]; lia|specialize (H k eq_refl); lia]. }
      destruct (ps_count p =? 0) eqn:Ec.
      * apply Nat.eqb_eq in Ec. destruct (h_syntax _ _ _ _ _) as [x [v|e]]; cbn; [unfold counted; cbn|]; splits; auto; now apply HC.
      * apply Nat.eqb_neq in Ec. unfold counted. cbn. splits; auto. destruct (ps_log p) as [|[]]; try contradiction; intros HH; apply Ec, HC, HH.
Qed.
Theorem reports_right n x ts : t_err t = 0 ->
  rpost (fun p => all_reported_right (ps_log p)) (fun _ p => all_reported_right (ps_log p)) (parse_all n t h (new_parser h x) ts).
Proof.
  intros He. assert (HG : forall ts p, counted p -> right (parse_all n t h p ts)).
  { clear x ts. induction ts as [|[a b] ts IH]; intros p Hq; cbn [parse_all]; [exact Hq|].
    eapply rpost_bind with (Q := counted); [|intros; now apply IH]. unfold parse_token. destruct (ps_status p); try exact I.
    pose proof (token_2_right n He p a b Hq) as H. destruct (parse_token_2 n t h p a b); auto. }
  eapply rpost_imp; [apply HG| |auto]; [split; cbn; auto|]. intros p (H & _). exact H.
Qed.
End Machine.

Section Build.
Context (ds : list decl) (b : built).
Notation g := (bt_grammar b). Notation t := (bt_tables b).
Hypothesis EX : expands ds b.
Hypothesis HN : ~ mentions ds "error".

(** C20, exact *)
Theorem reports_exact {V X E} (sm : sem V X E) n x ks :
  rpost (fun p => all_reported_right (ps_log p)) (fun _ p => all_reported_right (ps_log p))
    (parse_all n t (user_hooks t sm) (new_parser (user_hooks t sm) x) (map (token_value t sm) ks)).
Proof. apply reports_right. now apply (err_eq ds b EX). Qed.

(** C21 without the error symbol: the token is dropped and the parser is as before, except for
    what the handler does to the extra value.  %parse_fail is not run. *)
Theorem skipped {V X E} (sm : sem V X E) n (p : parser (minor V) X V) (k : token V) top rest :
  ps_status p = Normal -> ps_stack p = top :: rest -> token_wf t k ->
  find_shift_action t (e_state top) (fst k) = LAct (t_nstate t + t_nrule t) ->
  let expected := map (fun i => (i, token_build t i (0, v_unit sm))) (expected_tokens t (e_state top)) in
  let called := log (set_extra p (fst (u_syntax sm (Some k) expected (ps_extra p)))) (EvSyntaxError (fst k)) in
  api_parse (S n) t sm p k =
    if ps_count p =? 0 then
      match snd (u_syntax sm (Some k) expected (ps_extra p)) with
      | inl _ => ROk tt (log (set_count called 3) (EvDrop (fst k)))
      | inr e => RErr e (set_status called Failed)
      end
    else ROk tt (log (set_count p 3) (EvDrop (fst k))).
Proof.
  intros Hst Hsk Hk Hf. cbv zeta. unfold api_parse. rewrite (surjective_pairing (token_value t sm k)).
  assert (Hm : fst (token_value t sm k) = fst k) by (unfold token_value; destruct k as [a [v|]]; reflexivity).
  unfold parse_token. rewrite Hst. cbn [parse_token_2]. rewrite Hst, Hsk, Hm, Hf.
  replace (t_nstate t + t_nrule t <? t_nstate t) with false by (symmetry; apply Nat.ltb_ge; lia).
  rewrite Nat.ltb_irrefl, Nat.eqb_refl. unfold syntax_error. pose proof Hk as (H0 & _).
  replace (fst k =? 0) with false by (symmetry; apply Nat.eqb_neq; lia). rewrite (proj2 (err_eq ds b EX) HN). cbn [Nat.eqb negb].
  destruct (ps_count p =? 0); [|reflexivity]. cbn [h_syntax user_hooks].
  rewrite <- Hm at 1. rewrite (build_value t sm k Hk).
  destruct (u_syntax sm (Some k) _ (ps_extra p)) as [x' [v|e]]; reflexivity.
Qed.
End Build.
