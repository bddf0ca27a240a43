(** Facts about the generated parser that hold for any tables: stack limit (C19),
    silence after an error (C20), failure (C22), where errors come from (C29), and
    what recovery does (C21). *)
From Verif Require Import Base Syntax BaseFacts FrontEnd First States Actions Tables Runtime.

Section Run.
Context {M X E R : Type}.
Notation prs := (parser M X R).

(** What a result says about the parser. *)
Definition rpost {A} (Q : prs -> Prop) (Qe : E -> prs -> Prop) (r : res M X E R A) : Prop :=
  match r with ROk _ p => Q p | RErr e p => Qe e p | _ => True end.

Lemma rpost_bind {A B} (Q Q' : prs -> Prop) Qe (r : res M X E R A) (f : A -> prs -> res M X E R B) :
  rpost Q Qe r -> (forall a p, Q p -> rpost Q' Qe (f a p)) -> rpost Q' Qe (rbind r f).
Proof. destruct r; simpl; auto. Qed.
Lemma rpost_imp {A} (Q Q' : prs -> Prop) (Qe Qe' : E -> prs -> Prop) (r : res M X E R A) :
  rpost Q Qe r -> (forall p, Q p -> Q' p) -> (forall e p, Qe e p -> Qe' e p) -> rpost Q' Qe' r.
Proof. destruct r; simpl; auto. Qed.

Context (t : tables) (h : hooks M X E R).

(** ** The log only grows *)
Definition ext (p p' : prs) : Prop := exists l, ps_log p' = l ++ ps_log p.
Lemma ext_refl p : ext p p.
Proof. exists []. reflexivity. Qed.
Lemma ext_trans p1 p2 p3 : ext p1 p2 -> ext p2 p3 -> ext p1 p3.
Proof. intros [l H] [l' H']. exists (l' ++ l). now rewrite H', H, app_assoc. Qed.
Lemma ext_same p p' : ps_log p' = ps_log p -> ext p p'.
Proof. intros H. exists []. now rewrite H. Qed.
Lemma ext_log p p' e : ext p p' -> ext p (log p' e).
Proof. intros [l H]. exists (e :: l). simpl. now rewrite H. Qed.
Lemma ext_in p p' e : ext p p' -> In e (ps_log p) -> In e (ps_log p').
Proof. intros [l H] Hi. rewrite H. apply in_or_app. auto. Qed.

Notation extp p := (rpost (ext p) (fun _ => ext p)).

Lemma yy_shift_ext p q a m : extp p (yy_shift t h p q a m).
Proof.
  unfold yy_shift. destruct (_ && _).
  - destruct (h_overflow h a m (ps_extra p)). simpl. apply ext_log, ext_same. reflexivity.
  - simpl. now apply ext_same.
Qed.

Lemma yy_reduce_ext p r : extp p (yy_reduce t h p r).
Proof.
  unfold yy_reduce. destruct (nth_error (t_rules t) r) as [rr|]; simpl; auto.
  destruct (pop_n _ _ _) as [[vals rest]|]; simpl; auto.
  destruct (h_reduce h r vals (ps_extra p)) as [[x [v|e]]|]; simpl; auto.
  - destruct rest as [|top rest]; simpl; auto. destruct (find_reduce_action t (e_state top) (rr_lhs rr)); simpl; auto.
    set (p1 := log _ _). assert (H1 : ext p p1) by (apply ext_log, ext_same; reflexivity).
    destruct (a <? t_nstate t).
    + eapply rpost_imp; [apply yy_shift_ext| |]; intros; eapply ext_trans; eauto.
    + destruct (_ =? _); simpl; auto. destruct (h_accept h v); simpl; auto. apply ext_log. eapply ext_trans; [exact H1|]. now apply ext_same.
  - apply ext_log, ext_same. reflexivity.
Qed.

Lemma recover_ext n : forall st0 a m p, extp p (recover t h n st0 a m p).
Proof.
  induction n as [|n IH]; intros st0 a m p; simpl; auto.
  destruct (ps_stack p) as [|top rest]; simpl; [apply ext_refl|]. destruct (e_major top =? t_err t); simpl; [apply ext_refl|].
  destruct (find_reduce_action t (e_state top) (t_err t)); simpl; auto. destruct (a0 <? t_nstate t).
  - destruct (h_syntax _ _ _ _ _) as [x [v|e]]; simpl.
    + eapply rpost_bind; [eapply rpost_imp; [apply yy_shift_ext| |]|].
      * intros p' H'. eapply ext_trans; [|exact H']. apply ext_log, ext_same. reflexivity.
      * intros e p' H'. eapply ext_trans; [|exact H']. apply ext_log, ext_same. reflexivity.
      * intros _ p' H'. simpl. now apply ext_log.
    + apply ext_log, ext_same. reflexivity.
  - eapply rpost_imp; [apply IH| |].
    + intros p' H'. eapply ext_trans; [|exact H']. apply ext_log, ext_same. reflexivity.
    + intros e p' H'. eapply ext_trans; [|exact H']. apply ext_log, ext_same. reflexivity.
Qed.

Lemma failed_ext {A} p : extp p (@yy_parse_failed M X E R A h p).
Proof. unfold yy_parse_failed. destruct (h_fail h (ps_extra p)). simpl. apply ext_log, ext_same. reflexivity. Qed.

Lemma syntax_error_ext p st0 a m : extp p (syntax_error t h p st0 a m).
Proof.
  unfold syntax_error. destruct (a =? 0); [apply failed_ext|]. destruct (negb (t_err t =? 0)).
  - eapply rpost_bind; [apply recover_ext|]. intros _ p' H'. cbn beta. destruct (ps_stack p').
    + eapply rpost_imp; [apply failed_ext| |]; intros; eapply ext_trans; eauto.
    + simpl. apply ext_log. eapply ext_trans; [exact H'|]. now apply ext_same.
  - destruct (ps_count p =? 0).
    + destruct (h_syntax _ _ _ _ _) as [x [v|e]]; simpl; repeat apply ext_log; now apply ext_same.
    + simpl. apply ext_log. now apply ext_same.
Qed.

Lemma parse_token_2_ext n : forall p a m, extp p (parse_token_2 n t h p a m).
Proof.
  induction n as [|n IH]; intros p a m; cbn [parse_token_2]; [exact I|].
  destruct (ps_status p); try apply ext_refl. destruct (ps_stack p) as [|top rest]; [exact I|].
  destruct (find_shift_action t (e_state top) a); try exact I. destruct (a0 <? t_nstate t).
  - destruct (a =? 0); [exact I|]. eapply rpost_bind; [apply yy_shift_ext|]. intros _ p' H'. simpl. apply ext_log.
    eapply ext_trans; [exact H'|]. now apply ext_same.
  - destruct (a0 <? _).
    + eapply rpost_bind; [apply yy_reduce_ext|]. intros _ p' H'. eapply rpost_imp; [apply IH| |]; intros; eapply ext_trans; eauto.
    + destruct (a0 =? _); [apply syntax_error_ext|exact I].
Qed.

Lemma parse_token_ext n p a m : extp p (parse_token n t h p a m).
Proof.
  unfold parse_token. destruct (ps_status p); try exact I. pose proof (parse_token_2_ext n p a m) as H.
  destruct (parse_token_2 n t h p a m); simpl in *; auto.
Qed.

Lemma parse_all_ext n ts : forall p, extp p (parse_all n t h p ts).
Proof.
  induction ts as [|[a b] ts IH]; intros p; cbn [parse_all]; [apply ext_refl|].
  eapply rpost_bind; [apply parse_token_ext|]. intros _ p' H'. eapply rpost_imp; [apply IH| |]; intros; eapply ext_trans; eauto.
Qed.

(** ** Failure *)
Lemma parse_failed_stuck n p a m : ps_status p <> Normal -> parse_token n t h p a m = RPanic.
Proof. unfold parse_token. destruct (ps_status p); intros H; [contradiction|reflexivity|reflexivity]. Qed.

Theorem error_is_final n p a m e p' : parse_token n t h p a m = RErr e p' ->
  ps_status p' = Failed /\ (forall n' a' m', parse_token n' t h p' a' m' = RPanic) /\ (forall n', end_of_input n' t h p' = RPanic).
Proof.
  intros H. assert (Hf : ps_status p' = Failed).
  { unfold parse_token in H. destruct (ps_status p); try discriminate.
    destruct (parse_token_2 n t h p a m); try discriminate. injection H as _ <-. reflexivity. }
  splits; auto.
  - intros. apply parse_failed_stuck. congruence.
  - intros. unfold end_of_input. rewrite parse_failed_stuck; auto. congruence.
Qed.

(** ** Where an error comes from: the last thing that happened is the user code
    that returned it, and the extra value is as that code left it. *)
Inductive blame (e : E) (p : prs) : Prop :=
| bl_reduce r l vals x : ps_log p = EvReduce r :: l -> h_reduce h r vals x = Some (ps_extra p, inr e) -> blame e p
| bl_syntax a m exp l x : ps_log p = EvSyntaxError a :: l -> h_syntax h a m exp x = (ps_extra p, inr e) -> blame e p
| bl_fail l x : ps_log p = EvParseFail :: l -> h_fail h x = (ps_extra p, e) -> blame e p
| bl_overflow a m l x : ps_log p = EvOverflow a :: l -> h_overflow h a m x = (ps_extra p, e) -> blame e p.

Notation blamed := (rpost (fun _ => True) blame).

Lemma yy_shift_blame p q a m : blamed (yy_shift t h p q a m).
Proof.
  unfold yy_shift. destruct (_ && _); [|exact I]. destruct (h_overflow h a m (ps_extra p)) as [x e] eqn:Eo. eapply bl_overflow; [reflexivity|exact Eo].
Qed.
Lemma yy_reduce_blame p r : blamed (yy_reduce t h p r).
Proof.
  unfold yy_reduce. destruct (nth_error (t_rules t) r) as [rr|]; [|exact I].
  destruct (pop_n _ _ _) as [[vals rest]|]; [|exact I].
  destruct (h_reduce h r vals (ps_extra p)) as [[x [v|e]]|] eqn:Eh; [| |exact I].
  - destruct rest as [|top rest]; [exact I|]. destruct (find_reduce_action t (e_state top) (rr_lhs rr)); try exact I.
    destruct (a <? t_nstate t); [apply yy_shift_blame|]. destruct (_ =? _); [|exact I]. destruct (h_accept h v); exact I.
  - eapply bl_reduce; [reflexivity|exact Eh].
Qed.
Lemma recover_blame n : forall st0 a m p, blamed (recover t h n st0 a m p).
Proof.
  induction n as [|n IH]; intros st0 a m p; cbn [recover]; [exact I|].
  destruct (ps_stack p) as [|top rest]; [exact I|]. destruct (e_major top =? t_err t); [exact I|].
  destruct (find_reduce_action t (e_state top) (t_err t)); try exact I. destruct (a0 <? t_nstate t); [|apply IH].
  destruct (h_syntax _ _ _ _ _) as [x [v|e]] eqn:Eh.
  - eapply rpost_bind; [apply yy_shift_blame|]. intros; exact I.
  - eapply bl_syntax; [reflexivity|exact Eh].
Qed.
Lemma failed_blame {A} p : blamed (@yy_parse_failed M X E R A h p).
Proof. unfold yy_parse_failed. destruct (h_fail h (ps_extra p)) eqn:Ef. eapply bl_fail; [reflexivity|exact Ef]. Qed.
Lemma syntax_error_blame p st0 a m : blamed (syntax_error t h p st0 a m).
Proof.
  unfold syntax_error. destruct (a =? 0); [apply failed_blame|]. destruct (negb (t_err t =? 0)).
  - eapply rpost_bind; [apply recover_blame|]. intros _ p' _. cbn beta. destruct (ps_stack p'); [apply failed_blame|exact I].
  - destruct (ps_count p =? 0); [|exact I]. destruct (h_syntax _ _ _ _ _) as [x [v|e]] eqn:Eh; [exact I|].
    eapply bl_syntax; [reflexivity|exact Eh].
Qed.
Lemma parse_token_2_blame n : forall p a m, blamed (parse_token_2 n t h p a m).
Proof.
  induction n as [|n IH]; intros p a m; cbn [parse_token_2]; [exact I|].
  destruct (ps_status p); try exact I. destruct (ps_stack p) as [|top rest]; [exact I|].
  destruct (find_shift_action t (e_state top) a); try exact I. destruct (a0 <? t_nstate t).
  - destruct (a =? 0); [exact I|]. eapply rpost_bind; [apply yy_shift_blame|]. intros; exact I.
  - destruct (a0 <? _).
    + eapply rpost_bind; [apply yy_reduce_blame|]. intros; apply IH.
    + destruct (a0 =? _); [apply syntax_error_blame|exact I].
Qed.

Lemma blame_status e p s : blame e p -> blame e (set_status p s).
Proof. intros [r l v x H1 H2|a m ex l x H1 H2|l x H1 H2|a m l x H1 H2]; [eapply bl_reduce|eapply bl_syntax|eapply bl_fail|eapply bl_overflow]; cbn; eauto. Qed.

Theorem error_blame n p a m e p' : parse_token n t h p a m = RErr e p' -> blame e p'.
Proof.
  unfold parse_token. destruct (ps_status p); try discriminate. pose proof (parse_token_2_blame n p a m) as H.
  destruct (parse_token_2 n t h p a m); try discriminate. intros Heq. injection Heq as <- <-. now apply blame_status.
Qed.

(** A block that fails ends the call at once, with its error. *)
Theorem failing_block n p a m top rest r rr vals rest' x e :
  ps_status p = Normal -> ps_stack p = top :: rest -> find_shift_action t (e_state top) a = LAct (t_nstate t + r) ->
  r < t_nrule t -> nth_error (t_rules t) r = Some rr -> pop_n (List.length (rr_rhs rr)) (ps_stack p) [] = Some (vals, rest') ->
  h_reduce h r vals (ps_extra p) = Some (x, inr e) ->
  exists p', parse_token (S n) t h p a m = RErr e p' /\ ps_log p' = EvReduce r :: ps_log p /\ ps_extra p' = x /\ ps_status p' = Failed.
Proof.
  intros Hs Hst Ha Hr Hrr Hp Hh. eexists. unfold parse_token. rewrite Hs. cbn [parse_token_2]. rewrite Hs, Hst, Ha.
  replace (t_nstate t + r <? t_nstate t) with false by (symmetry; apply Nat.ltb_ge; lia).
  replace (t_nstate t + r <? t_nstate t + t_nrule t) with true by (symmetry; apply Nat.ltb_lt; lia).
  replace (t_nstate t + r - t_nstate t) with r by lia. unfold yy_reduce. rewrite Hrr, Hp, Hh. cbn. splits; reflexivity.
Qed.

(** ** The stack limit *)
Definition depth (p : prs) : nat := List.length (ps_stack p).
Definition fits (p : prs) : Prop := t_limit t = 0 \/ depth p <= t_limit t.
Notation fitp := (rpost fits (fun _ => fits)).

Lemma pop_n_length n : forall (s : list (entry M)) acc v r, pop_n n s acc = Some (v, r) -> List.length r <= List.length s.
Proof.
  induction n as [|n IH]; intros s acc v r H; simpl in H; [injection H as _ ->; lia|].
  destruct s as [|e s]; [discriminate|]. apply IH in H. simpl. lia.
Qed.
Lemma yy_shift_fits p q a m : fits p -> fitp (yy_shift t h p q a m).
Proof.
  unfold yy_shift, fits, depth. destruct (t_limit t =? 0) eqn:E0; simpl.
  - apply Nat.eqb_eq in E0. cbn. auto.
  - apply Nat.eqb_neq in E0. destruct (t_limit t <=? List.length (ps_stack p)) eqn:E1.
    + destruct (h_overflow h a m (ps_extra p)). cbn. auto.
    + apply Nat.leb_gt in E1. cbn. lia.
Qed.
Lemma yy_reduce_fits p r : fits p -> fitp (yy_reduce t h p r).
Proof.
  intros Hf. unfold yy_reduce. destruct (nth_error (t_rules t) r) as [rr|]; [|exact I].
  destruct (pop_n _ _ _) as [[vals rest]|] eqn:Ep; [|exact I]. apply pop_n_length in Ep.
  destruct (h_reduce h r vals (ps_extra p)) as [[x [v|e]]|]; [| |exact I].
  - destruct rest as [|top rest]; [exact I|]. destruct (find_reduce_action t (e_state top) (rr_lhs rr)); try exact I.
    destruct (a <? t_nstate t).
    + apply yy_shift_fits. unfold fits, depth in *. cbn in *. lia.
    + destruct (_ =? _); [|exact I]. destruct (h_accept h v); [|exact I]. unfold fits, depth in *. cbn in *. lia.
  - unfold fits, depth in *. cbn in *. lia.
Qed.
Lemma recover_fits n : forall st0 a m p, fits p -> fitp (recover t h n st0 a m p).
Proof.
  induction n as [|n IH]; intros st0 a m p Hf; cbn [recover]; [exact I|].
  destruct (ps_stack p) as [|top rest] eqn:Es; [exact Hf|]. destruct (e_major top =? t_err t); [exact Hf|].
  destruct (find_reduce_action t (e_state top) (t_err t)); try exact I. destruct (a0 <? t_nstate t).
  - destruct (h_syntax _ _ _ _ _) as [x [v|e]]; [|exact Hf].
    eapply rpost_bind; [apply yy_shift_fits; exact Hf|]. intros _ p' H'. exact H'.
  - apply IH. unfold fits, depth in *. rewrite Es in Hf. cbn in *. lia.
Qed.
Lemma failed_fits {A} p : fitp (@yy_parse_failed M X E R A h p).
Proof. unfold yy_parse_failed. destruct (h_fail h (ps_extra p)). unfold fits, depth. cbn. lia. Qed.
Lemma syntax_error_fits p st0 a m : fits p -> fitp (syntax_error t h p st0 a m).
Proof.
  intros Hf. unfold syntax_error. destruct (a =? 0); [apply failed_fits|]. destruct (negb (t_err t =? 0)).
  - eapply rpost_bind; [apply recover_fits; exact Hf|]. intros _ p' H'. cbn beta. destruct (ps_stack p') eqn:Es; [apply failed_fits|exact H'].
  - destruct (ps_count p =? 0); [|exact Hf]. destruct (h_syntax _ _ _ _ _) as [x [v|e]]; exact Hf.
Qed.
Lemma parse_token_2_fits n : forall p a m, fits p -> fitp (parse_token_2 n t h p a m).
Proof.
  induction n as [|n IH]; intros p a m Hf; cbn [parse_token_2]; [exact I|].
  destruct (ps_status p); try exact Hf. destruct (ps_stack p) as [|top rest] eqn:Es; [exact I|].
  destruct (find_shift_action t (e_state top) a); try exact I. destruct (a0 <? t_nstate t).
  - destruct (a =? 0); [exact I|]. eapply rpost_bind; [apply yy_shift_fits; exact Hf|]. intros _ p' H'. exact H'.
  - destruct (a0 <? _).
    + eapply rpost_bind; [apply yy_reduce_fits; exact Hf|]. intros; now apply IH.
    + destruct (a0 =? _); [now apply syntax_error_fits|exact I].
Qed.
Lemma parse_token_fits n p a m : fits p -> fitp (parse_token n t h p a m).
Proof.
  intros Hf. unfold parse_token. destruct (ps_status p); try exact I. pose proof (parse_token_2_fits n p a m Hf) as H.
  destruct (parse_token_2 n t h p a m); auto.
Qed.
Lemma parse_all_fits n ts : forall p, fits p -> fitp (parse_all n t h p ts).
Proof.
  induction ts as [|[a b] ts IH]; intros p Hf; cbn [parse_all]; [exact Hf|].
  eapply rpost_bind; [apply parse_token_fits; exact Hf|]. intros; now apply IH.
Qed.

(** C19, first part *)
Theorem stack_bounded n x ts : rpost (fun p => t_limit t = 0 \/ List.length (ps_stack p) <= t_limit t)
    (fun _ p => t_limit t = 0 \/ List.length (ps_stack p) <= t_limit t) (parse_all n t h (new_parser h x) ts).
Proof. apply parse_all_fits. unfold fits, depth. cbn. lia. Qed.

(** ** Silence after an error (no error symbol) *)
Fixpoint shifts (l : list event) : nat :=
  match l with [] => 0 | EvShift _ :: l' => S (shifts l') | _ :: l' => shifts l' end.
Definition is_syn (e : event) : bool := match e with EvSyntaxError _ => true | _ => false end.

(** number of shifts since the last report; [None] if there was none *)
Fixpoint since (l : list event) : option nat :=
  match l with
  | [] => None
  | EvSyntaxError _ :: _ => Some 0
  | EvShift _ :: l' => option_map S (since l')
  | _ :: l' => since l'
  end.
(** every report is preceded by none or by at least three shifts *)
Fixpoint spaced (l : list event) : Prop :=
  match l with
  | [] => True
  | EvSyntaxError _ :: l' => (match since l' with None => True | Some n => 3 <= n end) /\ spaced l'
  | _ :: l' => spaced l'
  end.

Definition quiet (p : prs) : Prop :=
  spaced (ps_log p) /\ match since (ps_log p) with None => True | Some n => 3 <= ps_count p + n end.
Notation quietp := (rpost quiet (fun _ p => spaced (ps_log p))).

Lemma yy_shift_same p q a m : rpost (fun p' => ps_log p' = ps_log p /\ ps_count p' = ps_count p)
  (fun _ p' => exists e, is_syn e = false /\ (forall b, e <> EvShift b) /\ ps_log p' = e :: ps_log p) (yy_shift t h p q a m).
Proof.
  unfold yy_shift. destruct (_ && _); [|cbn; auto]. destruct (h_overflow h a m (ps_extra p)). cbn. eexists. splits; [| |reflexivity]; auto; discriminate.
Qed.
Lemma yy_reduce_quiet p r : quiet p -> quietp (yy_reduce t h p r).
Proof.
  intros [H1 H2]. unfold yy_reduce. destruct (nth_error (t_rules t) r) as [rr|]; [|exact I].
  destruct (pop_n _ _ _) as [[vals rest]|]; [|exact I].
  destruct (h_reduce h r vals (ps_extra p)) as [[x [v|e]]|]; [|exact H1|exact I].
  destruct rest as [|top rest]; [exact I|]. destruct (find_reduce_action t (e_state top) (rr_lhs rr)); try exact I.
  destruct (a <? t_nstate t).
  - eapply rpost_imp; [apply yy_shift_same| |].
    + intros p' [L C]. unfold quiet. rewrite L, C. cbn. auto.
    + intros e p' (ev & Hs & Hn & L). rewrite L. destruct ev; try discriminate; cbn; auto.
  - destruct (_ =? _); [|exact I]. destruct (h_accept h v); [|exact I]. split; cbn; auto.
Qed.
Lemma parse_token_2_quiet n : t_err t = 0 -> forall p a m, quiet p -> quietp (parse_token_2 n t h p a m).
Proof.
  intros He. induction n as [|n IH]; intros p a m Hq; cbn [parse_token_2]; [exact I|].
  destruct (ps_status p); try exact Hq. destruct (ps_stack p) as [|top rest] eqn:Es; [exact I|].
  destruct (find_shift_action t (e_state top) a); try exact I. destruct (a0 <? t_nstate t).
  - destruct (a =? 0); [exact I|]. destruct Hq as [H1 H2]. pose proof (yy_shift_same p a0 a m) as HS.
    destruct (yy_shift t h p a0 a m) as [[] p'|e p'| |]; cbn in *; auto.
    + destruct HS as [L C]. unfold quiet. cbn. rewrite L, C. split; auto. destruct (since (ps_log p)); simpl; auto. lia.
    + destruct HS as (ev & Hs & Hn & L). rewrite L. destruct ev; try discriminate; cbn; auto.
  - destruct (a0 <? _).
    + eapply rpost_bind; [apply yy_reduce_quiet; exact Hq|]. intros; now apply IH.
    + destruct (a0 =? _); [|exact I]. destruct Hq as [H1 H2]. unfold syntax_error.
      destruct (a =? 0). { unfold yy_parse_failed. destruct (h_fail h (ps_extra p)). exact H1. }
      rewrite He. cbn [Nat.eqb negb]. destruct (ps_count p =? 0) eqn:Ec.
      * apply Nat.eqb_eq in Ec. rewrite Ec in H2. destruct (h_syntax _ _ _ _ _) as [x [v|e]]; cbn; [split; cbn|]; try split; auto.
      * split; cbn; auto. destruct (since (ps_log p)); auto. lia.
Qed.

(** C20 *)
Theorem reports_spaced n x ts : t_err t = 0 ->
  rpost (fun p => spaced (ps_log p)) (fun _ p => spaced (ps_log p)) (parse_all n t h (new_parser h x) ts).
Proof.
  intros He. assert (HG : forall ts p, quiet p -> quietp (parse_all n t h p ts)).
  { clear x ts. induction ts as [|[a b] ts IH]; intros p Hq; cbn [parse_all]; [exact Hq|].
    eapply rpost_bind with (Q := quiet); [|intros; now apply IH]. unfold parse_token. destruct (ps_status p); try exact I.
    pose proof (parse_token_2_quiet n He p a b Hq) as H. destruct (parse_token_2 n t h p a b); auto. }
  eapply rpost_imp; [apply HG|..]; [|intros p [H _]; exact H|auto]. split; exact I.
Qed.
End Run.

(** ** The limit changes nothing else (C19) *)
Definition unlimited (t : tables) : tables :=
  mkTables (t_nstate t) (t_nrule t) (t_nsym t) (t_nterm t) (t_wild t) (t_err t) (t_action t) (t_lookahead t)
    (t_shift_ofst t) (t_shift_min t) (t_shift_max t) (t_reduce_ofst t) (t_reduce_min t) (t_reduce_max t)
    (t_default t) (t_fallback t) (t_rules t) 0 (t_dts t) (t_typed t) (t_root t) (t_names t).

Section Limit.
Context {M X E R : Type} (t : tables) (h : hooks M X E R).
Notation prs := (parser M X R).

Lemma find_shift_unl s la : find_shift_action (unlimited t) s la = find_shift_action t s la.
Proof.
  unfold find_shift_action. cbn [unlimited t_nsym]. generalize (S (t_nsym t)) as n. intros n. revert la.
  induction n as [|n IH]; intros la; cbn [find_shift_action_n]; auto. rewrite IH. reflexivity.
Qed.
Lemma find_reduce_unl s la : find_reduce_action (unlimited t) s la = find_reduce_action t s la.
Proof. reflexivity. Qed.
Lemma expected_unl s : expected_tokens (unlimited t) s = expected_tokens t s.
Proof. unfold expected_tokens. apply filter_ext. intros a. now rewrite find_shift_unl. Qed.

(** the call was ended by the overflow code, with the stack full *)
Definition overflowed {A} (r : res M X E R A) : Prop :=
  exists e p a m l x, r = RErr e p /\ ps_log p = EvOverflow a :: l /\ h_overflow h a m x = (ps_extra p, e) /\
    0 < t_limit t <= List.length (ps_stack p).
Definition alike {A} (r r0 : res M X E R A) : Prop := r = r0 \/ overflowed r.

Lemma alike_bind {A B} (r r0 : res M X E R A) (f f0 : A -> prs -> res M X E R B) :
  alike r r0 -> (forall a p, alike (f a p) (f0 a p)) -> alike (rbind r f) (rbind r0 f0).
Proof.
  intros [<-|H] Hf.
  - destruct r; simpl; auto; left; reflexivity.
  - right. destruct H as (e & p & a & m & l & x & -> & H). exists e, p, a, m, l, x. auto.
Qed.

Lemma yy_shift_alike p q a m : alike (yy_shift t h p q a m) (yy_shift (unlimited t) h p q a m).
Proof.
  unfold yy_shift at 2. cbn. unfold yy_shift. destruct (t_limit t =? 0) eqn:E0; cbn [negb andb]; [now left|].
  apply Nat.eqb_neq in E0. destruct (t_limit t <=? List.length (ps_stack p)) eqn:E1; [|now left].
  apply Nat.leb_le in E1. destruct (h_overflow h a m (ps_extra p)) as [x e] eqn:Eo. right.
  do 6 eexists. splits; [reflexivity|reflexivity|exact Eo|lia|exact E1].
Qed.
Lemma yy_reduce_alike p r : alike (yy_reduce t h p r) (yy_reduce (unlimited t) h p r).
Proof.
  unfold yy_reduce. cbn [unlimited t_rules]. destruct (nth_error (t_rules t) r) as [rr|]; [|now left].
  destruct (pop_n _ _ _) as [[vals rest]|]; [|now left].
  destruct (h_reduce h r vals (ps_extra p)) as [[x [v|e]]|]; try now left.
  destruct rest as [|top rest]; [now left|]. rewrite find_reduce_unl. destruct (find_reduce_action t (e_state top) (rr_lhs rr)); try now left.
  cbn [unlimited t_nstate]. destruct (a <? t_nstate t); [apply yy_shift_alike|now left].
Qed.
Lemma recover_alike n : forall st0 a m p, alike (recover t h n st0 a m p) (recover (unlimited t) h n st0 a m p).
Proof.
  induction n as [|n IH]; intros st0 a m p; cbn [recover]; [now left|].
  destruct (ps_stack p) as [|top rest]; [now left|]. cbn [unlimited t_err]. destruct (e_major top =? t_err t); [now left|].
  rewrite find_reduce_unl. destruct (find_reduce_action t (e_state top) (t_err t)); try now left. cbn [unlimited t_nstate].
  destruct (a0 <? t_nstate t); [|apply IH]. rewrite expected_unl. destruct (h_syntax _ _ _ _ _) as [x [v|e]]; [|now left].
  apply alike_bind; [apply yy_shift_alike|]. intros; now left.
Qed.
Lemma syntax_error_alike p st0 a m : alike (syntax_error t h p st0 a m) (syntax_error (unlimited t) h p st0 a m).
Proof.
  unfold syntax_error. destruct (a =? 0); [now left|]. cbn [unlimited t_err]. destruct (negb (t_err t =? 0)).
  - apply alike_bind; [apply recover_alike|]. intros; now left.
  - rewrite expected_unl. now left.
Qed.
Lemma parse_token_2_alike n : forall p a m, alike (parse_token_2 n t h p a m) (parse_token_2 n (unlimited t) h p a m).
Proof.
  induction n as [|n IH]; intros p a m; cbn [parse_token_2]; [now left|].
  destruct (ps_status p); try now left. destruct (ps_stack p) as [|top rest]; [now left|]. rewrite find_shift_unl.
  destruct (find_shift_action t (e_state top) a); try now left. cbn [unlimited t_nstate t_nrule].
  destruct (a0 <? t_nstate t).
  - destruct (a =? 0); [now left|]. apply alike_bind; [apply yy_shift_alike|]. intros; now left.
  - destruct (a0 <? _).
    + apply alike_bind; [apply yy_reduce_alike|]. intros; apply IH.
    + destruct (a0 =? _); [apply syntax_error_alike|now left].
Qed.
Lemma parse_token_alike n p a m : alike (parse_token n t h p a m) (parse_token n (unlimited t) h p a m).
Proof.
  unfold parse_token. destruct (ps_status p); try now left. destruct (parse_token_2_alike n p a m) as [<-|H]; [now left|].
  right. destruct H as (e & p' & a' & m' & l & x & -> & H). exists e, (set_status p' Failed), a', m', l, x. auto.
Qed.
Lemma parse_all_alike n ts : forall p, alike (parse_all n t h p ts) (parse_all n (unlimited t) h p ts).
Proof.
  induction ts as [|[a b] ts IH]; intros p; cbn [parse_all]; [now left|].
  apply alike_bind; [apply parse_token_alike|]. intros; apply IH.
Qed.
Theorem run_alike n x ts : alike (run n t h x ts) (run n (unlimited t) h x ts).
Proof.
  unfold run. apply alike_bind; [apply parse_all_alike|]. intros _ p. unfold end_of_input.
  apply alike_bind; [apply parse_token_alike|]. intros; now left.
Qed.

Lemma no_overflow_limit0 {A} (r : res M X E R A) : t_limit t = 0 -> ~ overflowed r.
Proof. intros H0 (e & p & a & m & l & x & _ & _ & _ & H). lia. Qed.
End Limit.

(** Without a limit the overflow code is never run. *)
Section NoLimit.
Context {M X E R : Type} (t : tables) (h : hooks M X E R) (H0 : t_limit t = 0).
Notation prs := (parser M X R).
Definition calm (p : prs) : Prop := forall a, ~ In (EvOverflow a) (ps_log p).
Notation calmp := (rpost calm (fun (_ : E) => calm)).

Lemma calm_log p e : (forall a, e <> EvOverflow a) -> calm p -> calm (log p e).
Proof. intros He Hc a [H|H]; [now apply (He a)|now apply (Hc a)]. Qed.
Lemma yy_shift_calm p q a m : calm p -> calmp (yy_shift t h p q a m).
Proof. intros Hc. unfold yy_shift. rewrite H0. exact Hc. Qed.
Lemma yy_reduce_calm p r : calm p -> calmp (yy_reduce t h p r).
Proof.
  intros Hc. unfold yy_reduce. destruct (nth_error (t_rules t) r) as [rr|]; [|exact I].
  destruct (pop_n _ _ _) as [[vals rest]|]; [|exact I].
  destruct (h_reduce h r vals (ps_extra p)) as [[x [v|e]]|]; [|apply calm_log; [discriminate|exact Hc]|exact I].
  destruct rest as [|top rest]; [exact I|]. destruct (find_reduce_action t (e_state top) (rr_lhs rr)); try exact I.
  destruct (a <? t_nstate t).
  - apply yy_shift_calm, calm_log; [discriminate|exact Hc].
  - destruct (_ =? _); [|exact I]. destruct (h_accept h v); [|exact I]. apply calm_log; [discriminate|]. apply (calm_log _ (EvReduce r)); [discriminate|exact Hc].
Qed.
Lemma recover_calm n : forall st0 a m p, calm p -> calmp (recover t h n st0 a m p).
Proof.
  induction n as [|n IH]; intros st0 a m p Hc; cbn [recover]; [exact I|].
  destruct (ps_stack p) as [|top rest]; [exact Hc|]. destruct (e_major top =? t_err t); [exact Hc|].
  destruct (find_reduce_action t (e_state top) (t_err t)); try exact I. destruct (a0 <? t_nstate t).
  - destruct (h_syntax _ _ _ _ _) as [x [v|e]]; [|apply calm_log; [discriminate|exact Hc]].
    eapply rpost_bind; [apply yy_shift_calm, calm_log; [discriminate|exact Hc]|]. intros _ p' H'. apply calm_log; [discriminate|exact H'].
  - apply IH, calm_log; [discriminate|exact Hc].
Qed.
Lemma failed_calm {A} p : calm p -> calmp (@yy_parse_failed M X E R A h p).
Proof. intros Hc. unfold yy_parse_failed. destruct (h_fail h (ps_extra p)). apply calm_log; [discriminate|exact Hc]. Qed.
Lemma parse_token_2_calm n : forall p a m, calm p -> calmp (parse_token_2 n t h p a m).
Proof.
  induction n as [|n IH]; intros p a m Hc; cbn [parse_token_2]; [exact I|].
  destruct (ps_status p); try exact Hc. destruct (ps_stack p) as [|top rest] eqn:Es; [exact I|].
  destruct (find_shift_action t (e_state top) a); try exact I. destruct (a0 <? t_nstate t).
  - destruct (a =? 0); [exact I|]. eapply rpost_bind; [apply yy_shift_calm; exact Hc|]. intros _ p' H'. apply calm_log; [discriminate|exact H'].
  - destruct (a0 <? _).
    + eapply rpost_bind; [apply yy_reduce_calm; exact Hc|]. intros; now apply IH.
    + destruct (a0 =? _); [|exact I]. unfold syntax_error. destruct (a =? 0); [now apply failed_calm|]. destruct (negb (t_err t =? 0)).
      * eapply rpost_bind; [apply recover_calm; exact Hc|]. intros _ p' H'. cbn beta. destruct (ps_stack p'); [now apply failed_calm|].
        apply calm_log; [discriminate|exact H'].
      * destruct (ps_count p =? 0); [|apply calm_log; [discriminate|exact Hc]]. destruct (h_syntax _ _ _ _ _) as [x [v|e]].
        -- apply calm_log; [discriminate|]. apply (calm_log _ (EvSyntaxError a)); [discriminate|exact Hc].
        -- apply calm_log; [discriminate|exact Hc].
Qed.
Theorem no_overflow n x ts : rpost (fun p => forall a, ~ In (EvOverflow a) (ps_log p)) (fun _ p => forall a, ~ In (EvOverflow a) (ps_log p))
  (run n t h x ts).
Proof.
  assert (HT : forall p a m, calm p -> calmp (parse_token n t h p a m)).
  { intros p a m Hc. unfold parse_token. destruct (ps_status p); try exact I. pose proof (parse_token_2_calm n p a m Hc) as H.
    destruct (parse_token_2 n t h p a m); auto. }
  assert (HG : forall ts p, calm p -> calmp (parse_all n t h p ts)).
  { clear ts. induction ts as [|[a b] ts IH]; intros p Hq; cbn [parse_all]; [exact Hq|]. eapply rpost_bind; [apply HT; exact Hq|]. intros; now apply IH. }
  unfold run. eapply rpost_bind; [apply HG; intros a []|]. intros _ p Hp. unfold end_of_input.
  eapply rpost_bind; [apply HT; exact Hp|]. intros _ p' Hp'. destruct (ps_status p'); try exact I. exact Hp'.
Qed.
End NoLimit.
