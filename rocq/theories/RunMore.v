(** More facts about the generated parser that hold for any tables: what end_of_input does
    (C23), what recovery does (C21), what handlers are given (C25), and when two sets of
    blocks cannot be told apart (C32). *)
From Verif Require Import Base Syntax BaseFacts FrontEnd First States Actions Tables Runtime User RunFacts.
Open Scope nat_scope. Open Scope list_scope.

Section More.
Context {M X E R : Type} (t : tables) (h : hooks M X E R).
Notation prs := (parser M X R).

(** ** The end of the input: only reductions, then acceptance or one of the final errors *)
Definition grown (Q : event -> Prop) (p p' : prs) : Prop := exists l, ps_log p' = l ++ ps_log p /\ Forall Q l.
Lemma grown_refl (Q : event -> Prop) (p p' : prs) : ps_log p' = ps_log p -> grown Q p p'.
Proof. intros H. exists []. rewrite H. split; auto. Qed.
Lemma grown_log (Q : event -> Prop) (p p' : prs) e : Q e -> grown Q p p' -> grown Q p (log p' e).
Proof. intros He (l & H & F). exists (e :: l). split; [cbn; now rewrite H|constructor; auto]. Qed.
Lemma grown_trans (Q : event -> Prop) (p1 p2 p3 : prs) : grown Q p1 p2 -> grown Q p2 p3 -> grown Q p1 p3.
Proof. intros (l & H & F) (l' & H' & F'). exists (l' ++ l). split; [now rewrite H', H, app_assoc|now apply Forall_app]. Qed.
Definition at_end (e : event) : Prop := match e with EvReduce _ | EvAccept | EvParseFail | EvOverflow _ => True | _ => False end.
Notation endp p := (rpost (grown at_end p) (fun _ => grown at_end p)).

Lemma yy_shift_end p q a m : endp p (yy_shift t h p q a m).
Proof. unfold yy_shift. destruct (_ && _); [|now apply grown_refl]. destruct (h_overflow h a m (ps_extra p)). apply grown_log; [exact I|]. now apply grown_refl. Qed.
Lemma yy_reduce_end p r : endp p (yy_reduce t h p r).
Proof.
  unfold yy_reduce. destruct (nth_error (t_rules t) r) as [rr|]; [|exact I]. destruct (pop_n _ _ _) as [[vals rest]|]; [|exact I].
  destruct (h_reduce h r vals (ps_extra p)) as [[x [v|e]]|]; [| |exact I]; [|apply grown_log; [exact I|now apply grown_refl]].
  destruct rest as [|top rest]; [exact I|]. destruct (find_reduce_action t (e_state top) (rr_lhs rr)); try exact I.
  set (p1 := log _ _). assert (H1 : grown at_end p p1) by (apply grown_log; [exact I|now apply grown_refl]). destruct (a <? t_nstate t).
  - eapply rpost_imp; [apply yy_shift_end| |]; intros; eapply grown_trans; eauto.
  - destruct (_ =? _); [|exact I]. destruct (h_accept h v); [|exact I]. apply grown_log; [exact I|]. eapply grown_trans; [exact H1|]. now apply grown_refl.
Qed.
Theorem end_events n : forall p m, endp p (parse_token n t h p 0 m).
Proof.
  assert (H2 : forall p m, endp p (parse_token_2 n t h p 0 m)).
  { induction n as [|n IH]; intros p m; cbn [parse_token_2]; [exact I|]. destruct (ps_status p); try now apply grown_refl. destruct (ps_stack p) as [|top rest]; [exact I|].
    destruct (find_shift_action t (e_state top) 0); try exact I. destruct (a <? t_nstate t); [exact I|]. destruct (a <? _).
    - eapply rpost_bind; [apply yy_reduce_end|]. intros _ p' H'. eapply rpost_imp; [apply IH| |]; intros; eapply grown_trans; eauto.
    - destruct (a =? _); [|exact I]. unfold syntax_error. cbn [Nat.eqb]. unfold yy_parse_failed. destruct (h_fail h (ps_extra p)). apply grown_log; [exact I|]. now apply grown_refl. }
  intros p m. unfold parse_token. destruct (ps_status p); try exact I. specialize (H2 p m). destruct (parse_token_2 n t h p 0 m); cbn in *; auto.
Qed.

(** An error is always preceded by the event of the user code that gave it. *)
Notation lg p := (List.length (ps_log p)).
Notation longer p := (rpost (fun p' : prs => lg p <= lg p') (fun _ (p' : prs) => lg p < lg p')).
Lemma yy_shift_longer p q a m : longer p (yy_shift t h p q a m).
Proof. unfold yy_shift. destruct (_ && _); [destruct (h_overflow _ _ _ _)|]; cbn; lia. Qed.
Lemma yy_reduce_longer p r : longer p (yy_reduce t h p r).
Proof.
  unfold yy_reduce. destruct (nth_error (t_rules t) r) as [rr|]; [|exact I]. destruct (pop_n _ _ _) as [[vals rest]|]; [|exact I].
  destruct (h_reduce h r vals (ps_extra p)) as [[x [v|e]]|]; [| |exact I]; [|cbn; lia]. destruct rest as [|top rest]; [exact I|].
  destruct (find_reduce_action t (e_state top) (rr_lhs rr)); try exact I. destruct (a <? t_nstate t).
  - eapply rpost_imp; [apply yy_shift_longer| |]; intros; cbn in *; lia.
  - destruct (_ =? _); [|exact I]. destruct (h_accept h v); [|exact I]. cbn. lia.
Qed.
Lemma recover_longer n : forall st0 a m p, longer p (recover t h n st0 a m p).
Proof.
  induction n as [|n IH]; intros; cbn [recover]; [exact I|]. destruct (ps_stack p) as [|e rest]; [cbn; lia|]. destruct (_ =? _); [cbn; lia|].
  destruct (find_reduce_action t _ _); try exact I. destruct (_ <? _).
  - destruct (h_syntax h _ _ _ _) as [x [v|er]]; [|cbn; lia]. set (p1 := log _ _).
    assert (H : longer p (yy_shift t h p1 a0 (t_err t) v)) by (eapply rpost_imp; [apply yy_shift_longer| |]; intros; cbn in *; lia).
    eapply rpost_bind; [exact H|]. intros; cbn in *; lia.
  - eapply rpost_imp; [apply IH| |]; intros; cbn in *; lia.
Qed.
Lemma syntax_error_longer p st0 a m : longer p (syntax_error t h p st0 a m).
Proof.
  unfold syntax_error, yy_parse_failed. destruct (a =? 0); [destruct (h_fail _ _); cbn; lia|]. destruct (negb _).
  - eapply rpost_bind; [apply recover_longer|]. intros _ p' H. destruct (ps_stack p'); [destruct (h_fail _ _); cbn in *; lia|cbn in *; lia].
  - destruct (ps_count p =? 0); [|cbn; lia]. destruct (h_syntax h _ _ _ _) as [x [v|er]]; cbn; lia.
Qed.
Theorem error_logged n : forall p a m, longer p (parse_token n t h p a m).
Proof.
  assert (H2 : forall p a m, longer p (parse_token_2 n t h p a m)).
  { induction n as [|n IH]; intros p a m; cbn [parse_token_2]; [exact I|]. destruct (ps_status p); try (cbn; lia). destruct (ps_stack p) as [|top rest]; [exact I|].
    destruct (find_shift_action t (e_state top) a) as [ac| |]; try exact I. destruct (ac <? t_nstate t).
    - destruct (a =? 0); [exact I|]. eapply rpost_bind; [apply yy_shift_longer|]. intros _ p' H'. cbn in *. lia.
    - destruct (ac <? _).
      + eapply rpost_bind; [apply yy_reduce_longer|]. intros _ p' H'. eapply rpost_imp; [apply IH| |]; intros; cbn in *; lia.
      + destruct (ac =? _); [|exact I]. apply syntax_error_longer. }
  intros p a m. unfold parse_token. destruct (ps_status p); try exact I. specialize (H2 p a m). destruct (parse_token_2 n t h p a m); cbn in *; auto.
Qed.

(** ** Recovery: the error symbol is, or can be put, on top of a stack entry *)
Definition catches (e : entry M) : Prop := e_major e = t_err t \/ exists a, find_reduce_action t (e_state e) (t_err t) = LAct a /\ a < t_nstate t.
Definition passes (e : entry M) : Prop := e_major e <> t_err t /\ exists a, find_reduce_action t (e_state e) (t_err t) = LAct a /\ t_nstate t <= a.

Fixpoint pops (k : nat) (l : list event) : list event := match k with 0 => l | S k' => pops k' (EvPop :: l) end.
Lemma recover_pops st0 a m : forall above rest n p, List.length above < n -> ps_stack p = above ++ rest -> Forall passes above ->
  recover t h n st0 a m p =
  recover t h (n - List.length above) st0 a m (mkParser (ps_count p) rest (ps_extra p) (ps_status p) (pops (List.length above) (ps_log p))).
Proof.
  induction above as [|e above IH]; intros rest n p Hn Hs HF; cbn [List.length pops app] in *.
  - rewrite Nat.sub_0_r. cbn in Hs. rewrite <- Hs. now destruct p.
  - destruct n as [|n]; [lia|]. inversion HF as [|? ? [P1 (ac & P2 & P3)] HF']; subst. cbn [recover Nat.sub]. rewrite Hs. cbv beta iota.
    apply Nat.eqb_neq in P1. rewrite P1, P2. replace (ac <? t_nstate t) with false by (symmetry; apply Nat.ltb_ge; lia).
    rewrite (IH rest n (log (set_stack p (above ++ rest)) EvPop)) by (auto; lia). reflexivity.
Qed.

(** What a syntax error on a token [a] other than the end of input does, for a grammar that uses
    the error symbol: [above] are the entries above the topmost one that catches it. *)
Definition caught (p : prs) (above rest : list (entry M)) : prs :=
  mkParser (ps_count p) rest (ps_extra p) (ps_status p) (pops (List.length above) (ps_log p)).
Theorem recovery_exact p st0 a m above rest : a <> 0 -> t_err t <> 0 -> ps_stack p = above ++ rest -> Forall passes above ->
  match rest with
  | [] => syntax_error t h p st0 a m = yy_parse_failed h (caught p above [])
  | top :: _ =>
      (e_major top = t_err t -> syntax_error t h p st0 a m = ROk tt (log (set_count (caught p above rest) 3) (EvDrop a))) /\
      (e_major top <> t_err t -> forall q, find_reduce_action t (e_state top) (t_err t) = LAct q -> q < t_nstate t ->
         syntax_error t h p st0 a m =
         let '(x, ve) := h_syntax h a m (expected_tokens t st0) (ps_extra p) in
         let p1 := log (set_extra (caught p above rest) x) (EvSyntaxError a) in
         match ve with
         | inr e => RErr e p1
         | inl v => rbind (yy_shift t h p1 q (t_err t) v) (fun _ p2 => ROk tt (log (set_count (log p2 EvError) 3) (EvDrop a)))
         end)
  end.
Proof.
  intros Ha He Hs HF. unfold syntax_error. apply Nat.eqb_neq in Ha, He. rewrite Ha, He. cbn [negb].
  rewrite (recover_pops st0 a m above rest) by (auto; rewrite Hs, app_length; lia). fold (caught p above rest).
  assert (En : exists k, S (List.length (ps_stack p)) - List.length above = S k) by (exists (List.length rest); rewrite Hs, app_length; lia). destruct En as (k & ->).
  cbn [recover]. change (ps_stack (caught p above rest)) with rest. destruct rest as [|top rest]; [cbn [rbind]; reflexivity|]. split.
  - intros Hm. apply Nat.eqb_eq in Hm. rewrite Hm. cbn [rbind]. reflexivity.
  - intros Hm q Hq Lq. apply Nat.eqb_neq in Hm. apply Nat.ltb_lt in Lq. rewrite Hm, Hq, Lq. change (ps_extra (caught p above (top :: rest))) with (ps_extra p).
    destruct (h_syntax h a m (expected_tokens t st0) (ps_extra p)) as [x [v|e]]; [|reflexivity]. cbv zeta.
    unfold yy_shift. destruct (_ && _); [destruct (h_overflow _ _ _ _); reflexivity|]. reflexivity.
Qed.
Lemma split_catch l : (forall e, In e l -> catches e \/ passes e) -> exists above rest, l = above ++ rest /\ Forall passes above /\ match rest with [] => True | e :: _ => catches e end.
Proof.
  induction l as [|e l IH]; intros H; [exists [], []; splits; auto|]. destruct (H e (or_introl eq_refl)) as [C|Pa]; [exists [], (e :: l); splits; auto|].
  destruct IH as (above & rest & -> & F & HC); [intros; apply H; now right|]. exists (e :: above), rest. splits; auto.
Qed.
End More.

(** ** Two sets of blocks that agree wherever the first does not panic *)
Section Refine.
Context {M X E R : Type} (t : tables) (h h' : hooks M X E R).
Hypothesis HR : forall r vals x y, h_reduce h r vals x = Some y -> h_reduce h' r vals x = Some y.
Hypothesis HA : h_accept h' = h_accept h.
Hypothesis HS : h_syntax h' = h_syntax h.
Hypothesis HF : h_fail h' = h_fail h.
Hypothesis HO : h_overflow h' = h_overflow h.
Hypothesis HU : h_unit h' = h_unit h.
Definition follows {A} (r r' : res M X E R A) : Prop := r = RPanic \/ r' = r.

Lemma follows_bind {A B} (r r' : res M X E R A) (f f' : A -> parser M X R -> res M X E R B) : follows r r' -> (forall a p, follows (f a p) (f' a p)) -> follows (rbind r f) (rbind r' f').
Proof. intros [->| ->] Hf; [now left|]. destruct r; cbn; auto; now right. Qed.
Lemma yy_shift_same' p q a m : yy_shift t h' p q a m = yy_shift t h p q a m.
Proof. unfold yy_shift. now rewrite HO. Qed.
Lemma yy_reduce_follows p r : follows (yy_reduce t h p r) (yy_reduce t h' p r).
Proof.
  unfold yy_reduce. destruct (nth_error (t_rules t) r); [|now left]. destruct (pop_n _ _ _) as [[vals rest]|]; [|now left].
  destruct (h_reduce h r vals (ps_extra p)) as [y|] eqn:Eh; [|now left]. rewrite (HR _ _ _ _ Eh). destruct y as [x [v|e]]; [|now right].
  destruct rest; [now left|]. destruct (find_reduce_action t _ _); try now (left + right). rewrite HA, yy_shift_same'. now right.
Qed.
Lemma recover_same n : forall st0 a m p, recover t h' n st0 a m p = recover t h n st0 a m p.
Proof.
  induction n as [|n IH]; intros; cbn [recover]; auto. destruct (ps_stack p); auto. destruct (_ =? _); auto. destruct (find_reduce_action t _ _); auto. destruct (_ <? _); auto.
  rewrite HS. destruct (h_syntax h _ _ _ _) as [x [v|er]]; auto. now rewrite yy_shift_same'.
Qed.
Lemma failed_same {A} p : @yy_parse_failed M X E R A h' p = yy_parse_failed h p.
Proof. unfold yy_parse_failed. now rewrite HF. Qed.
Lemma syntax_error_same p st0 a m : syntax_error t h' p st0 a m = syntax_error t h p st0 a m.
Proof.
  unfold syntax_error. rewrite failed_same, recover_same, HS. destruct (a =? 0); auto. destruct (negb _); auto.
  destruct (recover t h _ _ _ _ _) as [[] p1|e p1| |]; cbn [rbind]; auto. destruct (ps_stack p1); auto. apply failed_same.
Qed.
Lemma parse_token_2_follows n : forall p a m, follows (parse_token_2 n t h p a m) (parse_token_2 n t h' p a m).
Proof.
  induction n as [|n IH]; intros p a m; cbn [parse_token_2]; [now right|]. destruct (ps_status p); try now right. destruct (ps_stack p); [now right|].
  destruct (find_shift_action t _ _); try now right. destruct (_ <? _); [rewrite yy_shift_same'; now right|]. destruct (_ <? _); [apply follows_bind; auto using yy_reduce_follows|].
  rewrite syntax_error_same. now right.
Qed.
Lemma parse_token_follows n p a m : follows (parse_token n t h p a m) (parse_token n t h' p a m).
Proof.
  unfold parse_token. destruct (ps_status p); try now right. destruct (parse_token_2_follows n p a m) as [->| ->]; [now left|now right].
Qed.
Lemma parse_all_follows n ts : forall p, follows (parse_all n t h p ts) (parse_all n t h' p ts).
Proof. induction ts as [|[a m] ts IH]; intros p; cbn [parse_all]; [now right|]. apply follows_bind; auto using parse_token_follows. Qed.
Theorem run_follows n x ts : follows (run n t h x ts) (run n t h' x ts).
Proof.
  unfold run. apply follows_bind; [unfold new_parser; rewrite HU; apply parse_all_follows|]. intros _ p. unfold end_of_input. apply follows_bind; [rewrite HU; apply parse_token_follows|]. intros _ p'. now right.
Qed.
End Refine.
