(** From the text of the block to the declarations (C37), and the whole macro. *)
From Verif Require Import Base BaseFacts Syntax FrontEnd First States Actions Tables BuildFacts ExpandFacts FaultSpec PanicFacts Claims7 SourceText SourceFacts.
Open Scope string_scope. Open Scope nat_scope. Open Scope list_scope.

(** lib.rs 18-38: [pomelo_impl].  No declarations: the error of the reader is reported; else
    [build] decides.  The module around the result is left out. *)
Definition macro (sy : syn) (fuel : nat) (ord : list (nat * nat) -> list (nat * nat)) (ts : list tok) : option (gres built) :=
  match read sy ts with Some ds => Some (build fuel ord ds) | None => None end.

Section Text.
Context (sy : syn) (Hok : syn_ok sy).

(** ** Texts one after the other *)
Definition closes (ts : list tok) : Prop := ts = [] \/ (exists r, ts = r ++ [SEMI]) \/ (exists r l, ts = r ++ [TGroup Brace l]).

Lemma last_inj (a b : list tok) x y : a ++ [x] = b ++ [y] -> x = y.
Proof. intros E. apply app_inj_tail in E. tauto. Qed.
Lemma last_tail (t : tok) r b y : t :: r = b ++ [y] -> r <> [] -> exists b', r = b' ++ [y].
Proof. destruct b as [|z b]; cbn; intros E H; inversion E; subst; [congruence|eauto]. Qed.
Lemma last_app (a r b : list tok) y : a ++ r = b ++ [y] -> r <> [] -> exists b', r = b' ++ [y].
Proof.
  revert b. induction a as [|t a IH]; cbn; intros b E H; [eauto|].
  destruct (last_tail _ _ _ _ E) as (b' & E'); [destruct a; cbn; auto; discriminate|]. eauto.
Qed.
Definition tail_ok (t : tok) : Prop := match t with TIdent _ | TPunct PQuest | TGroup Paren _ | TPunct PEq => True | _ => False end.
Lemma names_last ids l : names_text ids l -> exists b s, l = b ++ [TIdent s].
Proof. induction 1 as [s|s l ts H (b & x & ->)]; [exists [], s; auto|exists (TIdent s :: TPunct PBar :: b), x; auto]. Qed.
Lemma elem_last e l : elem_text sy e l -> exists b t, l = b ++ [t] /\ tail_ok t.
Proof.
  destruct e as [[ids o] al]. intros (ln & la & Tn & Ta & ->). destruct (names_last _ _ Tn) as (b & s & ->).
  destruct al; cbn in Ta; [destruct Ta as (l' & -> & _)|subst].
  - exists ((b ++ [TIdent s]) ++ mark_text o), (TGroup Paren l'). split; [now rewrite <- !app_assoc|exact I].
  - destruct o; [exists (b ++ [TIdent s]), (TPunct PQuest)|exists b, (TIdent s)]; split; cbn; rewrite ?app_nil_r; auto; exact I.
Qed.
Lemma elems_last es l : elems_text sy es l -> l = [] \/ exists b t, l = b ++ [t] /\ tail_ok t.
Proof.
  induction 1 as [|e es l ls He Hes IH]; auto. right. destruct IH as [->|(b & t & -> & Ht)].
  - rewrite app_nil_r. now apply elem_last with e.
  - exists (l ++ b), t. split; auto. apply app_assoc.
Qed.
Lemma open_last d l : decl_text sy d l true -> exists b t, l = b ++ [t] /\ tail_ok t.
Proof.
  intros H. remember true as o eqn:Eo. destruct H; try discriminate.
  destruct p; [discriminate|]. destruct act; [discriminate|]. destruct s; [|discriminate].
  cbn in H0. subst la. cbn [prec_text app]. rewrite app_nil_r.
  destruct (elems_last _ _ H) as [->|(b & t & -> & Ht)].
  - exists [TIdent lhs; TPunct PPath], (TPunct PEq). split; [reflexivity|exact I].
  - exists (TIdent lhs :: TPunct PPath :: TPunct PEq :: b), t. split; auto.
Qed.
Lemma open_not_closed d l : decl_text sy d l true -> closes l -> False.
Proof.
  intros H. destruct (open_last _ _ H) as (b & t & -> & Ht). intros [E|[(r & E)|(r & x & E)]].
  - destruct b; discriminate.
  - apply last_inj in E. subst. exact Ht.
  - apply last_inj in E. subst. exact Ht.
Qed.

(** Texts that are closed by a semicolon or a block are read one by one *)
Theorem texts_apart ts1 ts2 ds1 ds2 : closes ts1 \/ (exists r, ts2 = PCT :: r) ->
  read sy ts1 = Some ds1 -> read sy ts2 = Some ds2 -> read sy (ts1 ++ ts2) = Some (ds1 ++ ds2).
Proof.
  intros Hc H1 H2. apply read_iff in H1, H2; auto. apply read_iff; auto.
  induction H1 as [|d ds l ls o Hd Hds IH Ho]; auto.
  rewrite <- app_assoc. cbn [app]. apply ds_cons with o; auto.
  - apply IH. destruct Hc as [Hc|Hc]; [left|auto]. destruct ls as [|t ls]; [now left|].
    destruct Hc as [E|[(r & E)|(r & x & E)]].
    + destruct (decl_starts sy _ _ _ Hd) as [(q & ->)|(s & q & ->)]; discriminate.
    + right. left. apply last_app in E; [|discriminate]. destruct E as (b & ->). eauto.
    + right. right. apply last_app in E; [|discriminate]. destruct E as (b & ->). eauto.
  - intros ->. specialize (Ho eq_refl). destruct Ho as [->|(r & ->)]; [|right; cbn; eauto].
    cbn [app]. destruct Hc as [Hc|(r & ->)]; [|eauto]. rewrite app_nil_r in Hc. exfalso. now apply (open_not_closed d l).
Qed.

(** ** The macro *)
Theorem macro_no_panic fuel ord ts : hash_order ord -> (forall ds, read sy ts = Some ds -> classes_begin ds /\ shifts_leave ds) ->
  macro sy fuel ord ts <> Some GPanic.
Proof.
  intros Ho Hc. unfold macro. destruct (read sy ts) as [ds|] eqn:E; [|discriminate].
  intros H. inversion H. destruct (Hc ds eq_refl) as [C S]. eapply no_macro_panic; eauto. eapply read_named; eauto.
Qed.
Theorem macro_answers ord ts : hash_order ord -> (forall ds, read sy ts = Some ds -> classes_begin ds /\ shifts_leave ds /\ no_self_fallback ds) ->
  exists n r, (forall n', n <= n' -> macro sy n' ord ts = r) /\ (r = None \/ (exists b, r = Some (GOk b)) \/ (exists e, r = Some (GErr e))).
Proof.
  intros Ho Hc. unfold macro. destruct (read sy ts) as [ds|] eqn:E; [|exists 0, None; auto].
  destruct (Hc ds eq_refl) as (C & S & F). destruct (expansion_answers ds ord F (read_named sy _ _ E Hok) C S Ho) as (n & r & H & R).
  exists n, (Some r). split; [intros; now rewrite H|]. destruct R as [(b & ->)|(e & ->)]; eauto.
Qed.
End Text.

(** Without the semicolon two rules can run together, whatever syn does: [a ::= B c ::= D] *)
Definition rule_ab : list tok := [TIdent "a"; TPunct PPath; TPunct PEq; TIdent "B"].
Definition rule_cd : list tok := [TIdent "c"; TPunct PPath; TPunct PEq; TIdent "D"].
Theorem semicolon_refuted sy :
  read sy rule_ab = Some [DRule "a" [(["B"], false, None)] None None] /\
  read sy rule_cd = Some [DRule "c" [(["D"], false, None)] None None] /\
  read sy (rule_ab ++ rule_cd) = None /\
  read sy (rule_ab ++ SEMI :: rule_cd) = Some [DRule "a" [(["B"], false, None)] None None; DRule "c" [(["D"], false, None)] None None].
Proof. repeat split; reflexivity. Qed.

(** A semicolon is accepted after a block but nowhere else on its own *)
Theorem stray_semicolon sy ts : read sy (SEMI :: ts) = None.
Proof. reflexivity. Qed.
