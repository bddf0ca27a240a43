(** What the error handlers are called with, when their error ends the call (C25). *)
From Verif Require Import Base Syntax BaseFacts FrontEnd First States Actions Tables Runtime User RunFacts.

Section Handlers.
Context {M X E R : Type} (t : tables) (h : hooks M X E R) (a : nat) (m : M).
Notation prs := (parser M X R).
Hypothesis EH : t_err t = 0 \/ t_nterm t <= t_err t.
Hypothesis LH : forall rr, In rr (t_rules t) -> t_nterm t <= rr_lhs rr.

(** If the last thing that happened is a handler, this is how it was called: the handler of
    syntax errors with the token itself; that of overflows with the token if the token was being
    pushed, and otherwise for a non-terminal. *)
Definition heard (e : E) (p : prs) : Prop :=
  (forall c l, ps_log p = EvSyntaxError c :: l -> c = a /\ exists exp x, h_syntax h a m exp x = (ps_extra p, inr e)) /\
  (forall c l, ps_log p = EvOverflow c :: l ->
     c = a /\ (exists x, h_overflow h a m x = (ps_extra p, e)) \/ t_nterm t <= c /\ exists m' x, h_overflow h c m' x = (ps_extra p, e)).
Notation hears := (rpost (fun _ => True) heard).

Lemma shift_own p q : hears (yy_shift t h p q a m).
Proof.
  unfold yy_shift. destruct (_ && _); [|exact I]. destruct (h_overflow h a m (ps_extra p)) as [x e] eqn:Eo.
  split; cbn; [discriminate|]. intros c l H. injection H as <- _. left. eauto.
Qed.
Lemma shift_high p q c m' : t_nterm t <= c -> hears (yy_shift t h p q c m').
Proof.
  intros Hc. unfold yy_shift. destruct (_ && _); [|exact I]. destruct (h_overflow h c m' (ps_extra p)) as [x e] eqn:Eo.
  split; cbn; [discriminate|]. intros c' l H. injection H as <- _. right. eauto.
Qed.
Lemma reduce_hears p r : hears (yy_reduce t h p r).
Proof.
  unfold yy_reduce. destruct (nth_error (t_rules t) r) as [rr|] eqn:Er; [|exact I].
  destruct (pop_n _ _ _) as [[vals rest]|]; [|exact I].
  destruct (h_reduce h r vals (ps_extra p)) as [[x [v|e]]|] eqn:Eh; [| |exact I].
  - destruct rest as [|top rest]; [exact I|]. destruct (find_reduce_action t (e_state top) (rr_lhs rr)); try exact I.
    destruct (a0 <? t_nstate t); [apply shift_high, LH; eapply nth_error_In; eauto|]. destruct (_ =? _); [|exact I]. destruct (h_accept h v); exact I.
  - split; cbn; discriminate.
Qed.
Lemma recover_hears n : forall st0 p, t_err t <> 0 -> hears (recover t h n st0 a m p).
Proof.
  induction n as [|n IH]; intros st0 p Hz; cbn [recover]; [exact I|].
  destruct (ps_stack p) as [|top rest]; [exact I|]. destruct (e_major top =? t_err t); [exact I|].
  destruct (find_reduce_action t (e_state top) (t_err t)); try exact I. destruct (a0 <? t_nstate t); [|now apply IH].
  destruct (h_syntax _ _ _ _ _) as [x [v|e]] eqn:Eh.
  - eapply rpost_bind; [apply shift_high; lia|]. intros; exact I.
  - split; cbn; [|discriminate]. intros c l H. injection H as <- _. split; eauto.
Qed.
Lemma failed_hears {A} p : hears (@yy_parse_failed M X E R A h p).
Proof. unfold yy_parse_failed. destruct (h_fail h (ps_extra p)) eqn:Ef. split; cbn; discriminate. Qed.
Lemma syntax_hears p st0 : hears (syntax_error t h p st0 a m).
Proof.
  unfold syntax_error. destruct (a =? 0); [apply failed_hears|]. destruct (Nat.eqb_spec (t_err t) 0) as [Hz|Hz]; cbn [negb].
  - destruct (ps_count p =? 0); [|exact I]. destruct (h_syntax _ _ _ _ _) as [x [v|e]] eqn:Eh; [exact I|].
    split; cbn; [|discriminate]. intros c l H. injection H as <- _. split; eauto.
  - eapply rpost_bind; [apply recover_hears; auto|]. intros _ p' _. cbn beta. destruct (ps_stack p'); [apply failed_hears|exact I].
Qed.
Lemma token_2_hears n : forall p, hears (parse_token_2 n t h p a m).
Proof.
  induction n as [|n IH]; intros p; cbn [parse_token_2]; [exact I|].
  destruct (ps_status p); try exact I. destruct (ps_stack p) as [|top rest]; [exact I|].
  destruct (find_shift_action t (e_state top) a); try exact I. destruct (a0 <? t_nstate t).
  - destruct (a =? 0); [exact I|]. eapply rpost_bind; [apply shift_own|]. intros; exact I.
  - destruct (a0 <? _).
    + eapply rpost_bind; [apply reduce_hears|]. intros; apply IH.
    + destruct (a0 =? _); [apply syntax_hears|exact I].
Qed.
Theorem error_heard n p e p' : parse_token n t h p a m = RErr e p' -> heard e p'.
Proof.
  unfold parse_token. destruct (ps_status p); try discriminate. pose proof (token_2_hears n p) as H.
  destruct (parse_token_2 n t h p a m); try discriminate. intros Heq. injection Heq as <- <-. exact H.
Qed.
End Handlers.
