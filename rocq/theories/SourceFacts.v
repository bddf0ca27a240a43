(** The grammar of the declarations, said without a reader, and that the reader of lib.rs finds
    exactly the readings it allows. *)
From Verif Require Import Base BaseFacts Syntax PanicFacts SourceText.
Open Scope string_scope. Open Scope nat_scope. Open Scope list_scope.

Notation PCT := (TPunct PPercent).
Notation word s := (TIdent s%string).

Section Text.
Context (sy : syn).

(** [f] takes [l] for [a] whenever a token that can follow comes next *)
Definition takes {A} (f : list tok -> option (A * list tok)) (stop : tok -> Prop) (a : A) (l : list tok) : Prop :=
  forall t rest, stop t -> f (l ++ t :: rest) = Some (a, t :: rest).
Definition is_semi (t : tok) : Prop := t = SEMI.
Definition is_ident (t : tok) : Prop := exists s, t = TIdent s.

Definition semi_opt (l : list tok) : Prop := l = [] \/ l = [SEMI].

(** The names of one element: A or A|B|C *)
Inductive names_text : list ident -> list tok -> Prop :=
| nt_one s : names_text [s] [TIdent s]
| nt_more s l ts : names_text l ts -> names_text (s :: l) (TIdent s :: TPunct PBar :: ts).
Definition mark_text (o : bool) : list tok := if o then [TPunct PQuest] else [].
Definition alias_text (al : option string) (l : list tok) : Prop :=
  match al with None => l = [] | Some a => exists l', l = [TGroup Paren l'] /\ s_pat sy l' = Some a end.
Definition elem_text (e : rhs_elem) (l : list tok) : Prop :=
  let '(ids, o, al) := e in
  exists ln la, names_text ids ln /\ alias_text al la /\ l = ln ++ mark_text o ++ la.
Inductive elems_text : list rhs_elem -> list tok -> Prop :=
| et_nil : elems_text [] []
| et_cons e es l ls : elem_text e l -> elems_text es ls -> elems_text (e :: es) (l ++ ls).
Definition prec_text (p : option ident) : list tok :=
  match p with None => [] | Some p => [TGroup Bracket [TIdent p]] end.
Definition action_text (a : option code) (l : list tok) : Prop :=
  match a with None => l = [] | Some c => exists l', l = [TGroup Brace l'] /\ s_block sy l' = Some c end.
(** An optional type and the semicolon *)
Definition type_text (t : option ty) (l : list tok) : Prop :=
  match t with None => l = [] | Some t => takes (s_type sy) is_semi t l end.

(** The text of one declaration.  The mark says that it is still open: a rule without precedence,
    block and semicolon, which the next identifier would continue. *)
Inductive decl_text : decl -> list tok -> bool -> Prop :=
| dt_type n id t la lt : takes (s_attrs sy) is_ident n la -> type_text t lt ->
    decl_text (DType n id t) (PCT :: TKey "type" :: la ++ TIdent id :: lt ++ [SEMI]) false
| dt_module id : decl_text (DModule id) [PCT; word "module"; TIdent id; SEMI] false
| dt_include l c s : s_items sy l = Some c -> semi_opt s -> decl_text (DInclude c) (PCT :: word "include" :: TGroup Brace l :: s) false
| dt_syntax_error l c s : s_block sy l = Some c -> semi_opt s -> decl_text (DSyntaxError c) (PCT :: word "syntax_error" :: TGroup Brace l :: s) false
| dt_parse_fail l c s : s_block sy l = Some c -> semi_opt s -> decl_text (DParseFail c) (PCT :: word "parse_fail" :: TGroup Brace l :: s) false
| dt_stack_overflow l c s : s_block sy l = Some c -> semi_opt s -> decl_text (DStackOverflow c) (PCT :: word "stack_overflow" :: TGroup Brace l :: s) false
| dt_left ids : decl_text (DAssoc ALeft ids) (PCT :: word "left" :: map TIdent ids ++ [SEMI]) false
| dt_right ids : decl_text (DAssoc ARight ids) (PCT :: word "right" :: map TIdent ids ++ [SEMI]) false
| dt_nonassoc ids : decl_text (DAssoc ANone ids) (PCT :: word "nonassoc" :: map TIdent ids ++ [SEMI]) false
| dt_default_type t l : takes (s_type sy) is_semi t l -> decl_text (DDefaultType t) (PCT :: word "default_type" :: l ++ [SEMI]) false
| dt_extra_argument t l : takes (s_type sy) is_semi t l -> decl_text (DExtraArgument t) (PCT :: word "extra_argument" :: l ++ [SEMI]) false
| dt_error t l : takes (s_type sy) is_semi t l -> decl_text (DError t) (PCT :: word "error" :: l ++ [SEMI]) false
| dt_start_symbol id : decl_text (DStartSymbol id) [PCT; word "start_symbol"; TIdent id; SEMI] false
| dt_fallback fb ids : decl_text (DFallback fb ids) (PCT :: word "fallback" :: TIdent fb :: map TIdent ids ++ [SEMI]) false
| dt_wildcard id : decl_text (DWildcard id) [PCT; word "wildcard"; TIdent id; SEMI] false
| dt_token_class tk ids : decl_text (DTokenClass tk ids) (PCT :: word "token_class" :: TIdent tk :: map TIdent ids ++ [SEMI]) false
| dt_token n gs l : takes (s_enum sy) is_semi (n, gs) l -> decl_text (DToken n gs) (PCT :: word "token" :: l ++ [SEMI]) false
| dt_parser n gs l : takes (s_struct sy) is_semi (n, gs) l -> decl_text (DParser n gs) (PCT :: word "parser" :: l ++ [SEMI]) false
| dt_extra_token t l : takes (s_type sy) is_semi t l -> decl_text (DExtraToken t) (PCT :: word "extra_token" :: l ++ [SEMI]) false
| dt_stack_size n t l : type_text t l -> decl_text (DStackSize n t) (PCT :: word "stack_size" :: TLit (Some n) :: l ++ [SEMI]) false
| dt_verbose : decl_text DVerbose [PCT; word "verbose"; SEMI] false
| dt_rule lhs rhs act p lr la s : elems_text rhs lr -> action_text act la -> semi_opt s ->
    decl_text (DRule lhs rhs act p) (TIdent lhs :: TPunct PPath :: TPunct PEq :: lr ++ prec_text p ++ la ++ s)
      (match p, act, s with None, None, [] => true | _, _, _ => false end).

(** The text of a block: an open rule is followed by a directive or nothing *)
Inductive decls_text : list decl -> list tok -> Prop :=
| ds_nil : decls_text [] []
| ds_cons d ds l ls o : decl_text d l o -> decls_text ds ls ->
    (o = true -> ls = [] \/ exists r, ls = PCT :: r) -> decls_text (d :: ds) (l ++ ls).

(** What is assumed of syn: a parser takes tokens from the front, and what it takes does not
    depend on what comes after the token that stops it; no type begins with a semicolon *)
Definition local {A} (f : list tok -> option (A * list tok)) (stop : tok -> Prop) : Prop :=
  forall ts a t rest, stop t -> f ts = Some (a, t :: rest) ->
  exists l, ts = l ++ t :: rest /\ takes f stop a l.
Record syn_ok : Prop := {
  so_attrs : local (s_attrs sy) is_ident;
  so_type : local (s_type sy) is_semi;
  so_enum : local (s_enum sy) is_semi;
  so_struct : local (s_struct sy) is_semi;
  so_semi : forall r, s_type sy (SEMI :: r) = None }.

(** ** What each reader takes *)
Lemma p_idents_text ids rest : p_idents (map TIdent ids ++ SEMI :: rest) = Some (ids, rest).
Proof. induction ids; cbn; auto. now rewrite IHids. Qed.
Lemma p_idents_sound ts : forall ids rest, p_idents ts = Some (ids, rest) -> ts = map TIdent ids ++ SEMI :: rest.
Proof.
  induction ts as [|t ts IH]; cbn; intros ids rest E; [discriminate|].
  destruct t as [s|s|[]|n|d l]; try discriminate.
  - destruct (p_idents ts) as [[l r]|] eqn:P; inversion E; subst. cbn. f_equal. now apply IH.
  - inversion E; subst. reflexivity.
Qed.
Lemma with_semi_text {A} (f : list tok -> option (A * list tok)) d a l rest :
  takes f is_semi a l -> with_semi f d (l ++ SEMI :: rest) = Some (d a, rest).
Proof. intros T. unfold with_semi. now rewrite (T SEMI rest eq_refl). Qed.
Lemma with_semi_sound {A} (f : list tok -> option (A * list tok)) d ts x rest :
  local f is_semi -> with_semi f d ts = Some (x, rest) ->
  exists a l, x = d a /\ ts = l ++ SEMI :: rest /\ takes f is_semi a l.
Proof.
  unfold with_semi. intros Hl E. destruct (f ts) as [[a r]|] eqn:F; [|discriminate].
  destruct r as [|[| |[]| |] r]; cbn in E; inversion E; subst.
  destruct (Hl _ _ SEMI _ eq_refl F) as (l & -> & T). now exists a, l.
Qed.
Lemma p_ident_local : local p_ident is_semi.
Proof.
  intros ts a t rest Ht E. destruct ts as [|[s| | | |] ts]; cbn in E; inversion E; subst.
  exists [TIdent a]. split; auto. intros t' r' _. reflexivity.
Qed.
Lemma p_ident_takes s : takes p_ident is_semi s [TIdent s].
Proof. intros t r _. reflexivity. Qed.
Lemma p_ident_sound_semi ts s : takes p_ident is_semi s ts -> ts = [TIdent s].
Proof.
  intros T. pose proof (T SEMI [] eq_refl) as E. destruct ts as [|[x| | | |] ts]; cbn in E; inversion E; subst.
  destruct ts as [|t [|]]; cbn in *; try discriminate; auto.
Qed.

Definition no_semi (l : list tok) : Prop := match l with SEMI :: _ => False | _ => True end.
Lemma skip_semi_text s rest : semi_opt s -> no_semi rest -> skip_semi (s ++ rest) = rest.
Proof. intros [->| ->] H; cbn; auto. destruct rest as [|[| |[]| |] rest]; cbn in *; tauto. Qed.
Lemma skip_semi_sound ts : exists s, semi_opt s /\ ts = s ++ skip_semi ts.
Proof.
  assert (H : skip_semi ts = ts \/ ts = SEMI :: skip_semi ts) by (destruct ts as [|[| |[]| |] ts]; cbn; auto).
  destruct H as [H|H]; [exists []|exists [SEMI]]; unfold semi_opt; cbn; auto.
Qed.

(** What may come after an element *)
Definition after (l : list tok) : Prop :=
  match l with TPunct PBar :: _ | TPunct PQuest :: _ | TGroup Paren _ :: _ => False | _ => True end.
Lemma p_names_text ids l : names_text ids l -> forall rest, match rest with TPunct PBar :: _ => False | _ => True end -> p_names (l ++ rest) = Some (ids, rest).
Proof.
  induction 1; intros rest Hr.
  - cbn. destruct rest as [|[| |[]| |] rest]; auto; tauto.
  - cbn. now rewrite IHnames_text.
Qed.
Lemma p_names_sound n : forall ts ids rest, List.length ts <= n -> p_names ts = Some (ids, rest) -> exists l, ts = l ++ rest /\ names_text ids l.
Proof.
  induction n as [|n IH]; intros ts ids rest Hn E; (destruct ts as [|t ts]; [discriminate|cbn in Hn]); [lia|].
  destruct t as [s| | | |]; try discriminate.
  assert (Hone : p_names (TIdent s :: ts) = Some ([s], ts) -> exists l, TIdent s :: ts = l ++ rest /\ names_text ids l).
  { intros E'. rewrite E' in E. inversion E; subst. exists [TIdent s]. split; auto. constructor. }
  destruct ts as [|t ts]; [apply Hone; reflexivity|].
  destruct t as [| |p| |]; try (apply Hone; reflexivity).
  destruct p; try (apply Hone; reflexivity).
  cbn [p_names] in E. destruct (p_names ts) as [[l r]|] eqn:P; inversion E; subst.
  cbn in Hn. destruct (IH ts l rest ltac:(lia) P) as (l' & -> & T). exists (TIdent s :: TPunct PBar :: l'). split; auto. now constructor.
Qed.
Lemma p_mark_text o rest : after rest -> p_mark (mark_text o ++ rest) = (o, rest).
Proof. intros H. destruct o; auto. cbn. destruct rest as [|[| |[]| |[]] rest]; cbn in *; auto; tauto. Qed.
Lemma p_elem_text e l rest : elem_text e l -> after rest -> p_elem sy (l ++ rest) = Some (e, rest).
Proof.
  destruct e as [[ids o] al]. intros (ln & la & Tn & Ta & ->) Hr. unfold p_elem.
  rewrite <- !app_assoc.
  assert (Ha : p_alias sy (la ++ rest) = Some (al, rest)).
  { destruct al; cbn in Ta.
    - destruct Ta as (l' & -> & E). cbn. now rewrite E.
    - subst. cbn. destruct rest as [|[| |[]| |[]] rest]; cbn in *; auto; tauto. }
  rewrite (p_names_text _ _ Tn).
  - assert (M : p_mark (mark_text o ++ la ++ rest) = (o, la ++ rest)).
    { destruct o; auto. destruct al; cbn in Ta.
      - destruct Ta as (l' & -> & E). reflexivity.
      - subst. exact (p_mark_text false rest Hr). }
    rewrite M, Ha. reflexivity.
  - destruct o; cbn; auto. destruct al; cbn in Ta.
    + destruct Ta as (l' & -> & E). exact I.
    + subst. cbn. destruct rest as [|[| |[]| |[]] rest]; cbn in *; auto.
Qed.
Lemma p_elem_sound ts e rest : p_elem sy ts = Some (e, rest) -> exists l, ts = l ++ rest /\ elem_text e l.
Proof.
  unfold p_elem. intros E. destruct (p_names ts) as [[ids r]|] eqn:N; [|discriminate].
  destruct (p_names_sound _ _ _ _ (le_n _) N) as (ln & -> & Tn).
  destruct (p_mark r) as [o r1] eqn:M.
  assert (Er : r = mark_text o ++ r1).
  { destruct r as [|[| |[]| |] r]; cbn in M; inversion M; reflexivity. }
  destruct (p_alias sy r1) as [[al r2]|] eqn:A; [|discriminate]. inversion E; subst.
  assert (Ha : exists la, r1 = la ++ rest /\ alias_text al la).
  { assert (Hno : p_alias sy r1 = Some (None, r1) -> exists la, r1 = la ++ rest /\ alias_text al la)
      by (intros E'; rewrite E' in A; inversion A; subst; now exists []).
    destruct r1 as [|[| | | |[] l] r1]; try (apply Hno; reflexivity).
    cbn in A. destruct (s_pat sy l) as [a|] eqn:P; inversion A; subst. exists [TGroup Paren l]. split; auto. cbn. eauto. }
  destruct Ha as (la & -> & Ta). exists (ln ++ mark_text o ++ la). split; [now rewrite <- !app_assoc|]. cbn. eauto.
Qed.
Lemma names_cons ids l : names_text ids l -> exists s l', l = TIdent s :: l'.
Proof. destruct 1; eauto. Qed.
Lemma elem_cons e l : elem_text e l -> exists s l', l = TIdent s :: l'.
Proof. destruct e as [[ids o] al]. intros (ln & la & Tn & _ & ->). destruct (names_cons _ _ Tn) as (s & l' & ->). cbn. eauto. Qed.
Lemma elems_after es l rest : elems_text es l -> after rest -> after (l ++ rest).
Proof. destruct 1 as [|e es l ls He _]; intros Ha; [exact Ha|]. destruct (elem_cons _ _ He) as (s & l' & ->). exact I. Qed.

Definition no_ident (l : list tok) : Prop := match l with TIdent _ :: _ => False | _ => True end.
Lemma p_elems_text es l : elems_text es l -> forall n rest, List.length l <= n -> after rest -> no_ident rest ->
  p_elems sy n (l ++ rest) = Some (es, rest).
Proof.
  induction 1 as [|e es l ls He Hes IH]; intros n rest Hn Ha Hi.
  - cbn [app]. destruct n; (destruct rest as [|[] rest]; [reflexivity|contradiction Hi|reflexivity..]).
  - destruct (elem_cons _ _ He) as (s & l' & El). rewrite <- app_assoc. rewrite app_length in Hn.
    destruct n as [|n]; [subst; cbn in Hn; lia|].
    assert (P : p_elem sy (l ++ ls ++ rest) = Some (e, ls ++ rest)) by (apply p_elem_text; auto; now apply elems_after with es).
    assert (X : p_elems sy n (ls ++ rest) = Some (es, rest)) by (apply IH; auto; subst; cbn in Hn; lia).
    subst l. cbn [app p_elems]. cbn [app] in P. now rewrite P, X.
Qed.
Lemma p_elems_sound n : forall ts es rest, p_elems sy n ts = Some (es, rest) -> exists l, ts = l ++ rest /\ elems_text es l /\ no_ident rest.
Proof.
  induction n as [|n IH]; intros ts es rest E.
  - exists []. destruct ts as [|[] ts]; cbn in E; inversion E; subst; splits; auto; constructor || exact I.
  - assert (Hno : no_ident ts -> exists l, ts = l ++ rest /\ elems_text es l /\ no_ident rest).
    { intros Hi. exists []. destruct ts as [|[] ts]; cbn in Hi; try tauto; cbn in E; inversion E; subst; splits; auto; constructor || exact I. }
    destruct ts as [|[s| | | |] ts]; try (apply Hno; exact I). cbn [p_elems] in E.
    destruct (p_elem sy (TIdent s :: ts)) as [[e r]|] eqn:P; [|discriminate].
    destruct (p_elems sy n r) as [[es' r']|] eqn:Q; inversion E; subst.
    destruct (p_elem_sound _ _ _ P) as (l & El & T). destruct (IH _ _ _ Q) as (l' & -> & T' & Hi).
    exists (l ++ l'). splits; auto; [rewrite El; apply app_assoc|now constructor].
Qed.

(** ** One declaration *)
Definition starts (l : list tok) : Prop := l = [] \/ (exists r, l = PCT :: r) \/ (exists s r, l = TIdent s :: r).
Lemma starts_no_semi l : starts l -> no_semi l.
Proof. intros [->|[(r & ->)|(s & r & ->)]]; exact I. Qed.
Lemma prec_after p la s rest : (la = [] \/ exists l', la = [TGroup Brace l']) -> semi_opt s -> starts rest -> after (prec_text p ++ la ++ s ++ rest).
Proof. intros [->|(l' & ->)] [->| ->] [->|[(r & ->)|(x & r & ->)]]; destruct p; exact I. Qed.

Lemma p_rule_text lhs rhs act p lr la s rest :
  elems_text rhs lr -> action_text act la -> semi_opt s -> starts rest ->
  (match p, act, s with None, None, [] => rest = [] \/ exists r, rest = PCT :: r | _, _, _ => True end) ->
  p_rule sy (TIdent lhs :: TPunct PPath :: TPunct PEq :: (lr ++ prec_text p ++ la ++ s) ++ rest) = Some (DRule lhs rhs act p, rest).
Proof.
  intros Hl Ha Hs Hst Ho. cbn [p_rule]. rewrite <- !app_assoc.
  assert (Hla : la = [] \/ exists l', la = [TGroup Brace l']) by (destruct act; cbn in Ha; [destruct Ha as (l' & -> & _)|]; eauto).
  rewrite (p_elems_text _ _ Hl).
  - assert (P : p_prec (prec_text p ++ la ++ s ++ rest) = Some (p, la ++ s ++ rest)).
    { destruct p; [reflexivity|]. destruct Hla as [->|(l' & ->)], Hs as [->| ->], Hst as [->|[(r & ->)|(x & r & ->)]]; reflexivity. }
    rewrite P.
    assert (Q : p_action sy (la ++ s ++ rest) = Some (act, s ++ rest)).
    { destruct act; cbn in Ha; [destruct Ha as (l' & -> & E); cbn; now rewrite E|subst].
      destruct Hs as [->| ->], Hst as [->|[(r & ->)|(x & r & ->)]]; reflexivity. }
    rewrite Q, skip_semi_text; auto. now apply starts_no_semi.
  - rewrite app_length. lia.
  - now apply prec_after.
  - destruct p; [exact I|]. destruct act; cbn in Ha; [destruct Ha as (l' & -> & _); exact I|subst].
    destruct Hs as [->| ->]; [|exact I]. destruct Ho as [->|(r & ->)]; exact I.
Qed.

Lemma p_type_decl_text n id t la lt rest : syn_ok -> takes (s_attrs sy) is_ident n la -> type_text t lt ->
  p_type_decl sy ((la ++ TIdent id :: lt ++ [SEMI]) ++ rest) = Some (DType n id t, rest).
Proof.
  intros Hok Ha Ht. unfold p_type_decl. rewrite <- app_assoc. cbn [app]. rewrite <- app_assoc. cbn [app].
  rewrite (Ha (TIdent id) _ (ex_intro _ id eq_refl)). cbn [p_ident]. destruct t as [t|]; cbn in Ht.
  - assert (W := with_semi_text (s_type sy) (fun t => DType n id (Some t)) t lt rest Ht).
    pose proof (Ht SEMI rest eq_refl) as Et.
    destruct (lt ++ SEMI :: rest) as [|[| |[]| |] r] eqn:El; auto. rewrite (so_semi Hok) in Et. discriminate.
  - subst. reflexivity.
Qed.
Lemma p_type_decl_sound ts d rest : syn_ok -> p_type_decl sy ts = Some (d, rest) ->
  exists n id t la lt, d = DType n id t /\ ts = (la ++ TIdent id :: lt ++ [SEMI]) ++ rest /\ takes (s_attrs sy) is_ident n la /\ type_text t lt.
Proof.
  intros Hok E. unfold p_type_decl in E. destruct (s_attrs sy ts) as [[n r]|] eqn:A; [|discriminate].
  destruct r as [|[id| | | |] r]; cbn [p_ident] in E; try discriminate.
  destruct (so_attrs Hok _ _ _ _ (ex_intro _ id eq_refl) A) as (la & -> & Ta).
  assert (Hsome : with_semi (s_type sy) (fun t => DType n id (Some t)) r = Some (d, rest) ->
    exists n0 id0 t la0 lt, d = DType n0 id0 t /\ la ++ TIdent id :: r = (la0 ++ TIdent id0 :: lt ++ [SEMI]) ++ rest /\ takes (s_attrs sy) is_ident n0 la0 /\ type_text t lt).
  { intros W. destruct (with_semi_sound _ _ _ _ _ (so_type Hok) W) as (t & l & -> & -> & T).
    exists n, id, (Some t), la, l. splits; auto. rewrite <- app_assoc. cbn [app]. now rewrite <- app_assoc. }
  destruct r as [|[| |[]| |] r]; auto. inversion E; subst.
  exists n, id, None, la, []. splits; auto; try reflexivity. now rewrite <- app_assoc.
Qed.
Lemma p_stack_size_text n t l rest : syn_ok -> type_text t l ->
  p_stack_size sy ((TLit (Some n) :: l ++ [SEMI]) ++ rest) = Some (DStackSize n t, rest).
Proof.
  intros Hok Ht. cbn [app p_stack_size]. rewrite <- app_assoc. cbn [app]. destruct t as [t|]; cbn in Ht.
  - assert (W := with_semi_text (s_type sy) (fun t => DStackSize n (Some t)) t l rest Ht).
    pose proof (Ht SEMI rest eq_refl) as Et.
    destruct (l ++ SEMI :: rest) as [|[| |[]| |] r] eqn:El; auto. rewrite (so_semi Hok) in Et. discriminate.
  - subst. reflexivity.
Qed.
Lemma p_stack_size_sound ts d rest : syn_ok -> p_stack_size sy ts = Some (d, rest) ->
  exists n t l, d = DStackSize n t /\ ts = (TLit (Some n) :: l ++ [SEMI]) ++ rest /\ type_text t l.
Proof.
  intros Hok E. destruct ts as [|[| | |[n|]|] r]; cbn [p_stack_size] in E; try discriminate.
  assert (Hsome : with_semi (s_type sy) (fun t => DStackSize n (Some t)) r = Some (d, rest) ->
    exists n0 t l, d = DStackSize n0 t /\ TLit (Some n) :: r = (TLit (Some n0) :: l ++ [SEMI]) ++ rest /\ type_text t l).
  { intros W. destruct (with_semi_sound _ _ _ _ _ (so_type Hok) W) as (t & l & -> & -> & T).
    exists n, (Some t), l. splits; auto. cbn [app]. now rewrite <- app_assoc. }
  destruct r as [|[| |[]| |] r]; auto. inversion E; subst.
  exists n, None, []. splits; auto; reflexivity.
Qed.

Lemma p_decl_text d l o rest : syn_ok -> decl_text d l o -> starts rest -> (o = true -> rest = [] \/ exists r, rest = PCT :: r) ->
  p_decl sy (l ++ rest) = Some (d, rest).
Proof.
  intros Hok H Hst Ho. assert (Hns := starts_no_semi _ Hst).
  inversion H; subst; clear H; cbn [app p_decl p_directive String.eqb Ascii.eqb Bool.eqb];
    unfold with_block; repeat match goal with E : _ = Some _ |- _ => rewrite E end;
    try (rewrite skip_semi_text by auto; reflexivity);
    try (unfold p_ids, p_ident_idents; cbn [p_ident]; rewrite <- app_assoc; cbn [app]; rewrite p_idents_text; reflexivity);
    try (rewrite <- app_assoc; cbn [app]; erewrite with_semi_text by eassumption; reflexivity);
    try reflexivity.
  - now apply p_type_decl_text.
  - exact (p_stack_size_text n t l0 rest Hok H0).
  - apply p_rule_text; auto. destruct p, act, s; auto.
Qed.

Lemma p_rule_sound ts d rest : p_rule sy ts = Some (d, rest) -> exists l o, ts = l ++ rest /\ decl_text d l o /\ (o = true -> no_ident rest).
Proof.
  intros E. destruct ts as [|[lhs| | | |] [|[| |[]| |] [|[| |[]| |] r]]]; try discriminate. cbn [p_rule] in E.
  destruct (p_elems sy (List.length r) r) as [[rhs r1]|] eqn:A; [|discriminate].
  destruct (p_elems_sound _ _ _ _ A) as (lr & -> & Tr & Hi).
  destruct (p_prec r1) as [[p r2]|] eqn:P; [|discriminate].
  assert (Ep : r1 = prec_text p ++ r2).
  { destruct r1 as [|[| | | |[] [|[] []]] r1]; cbn in P; inversion P; subst; reflexivity. }
  destruct (p_action sy r2) as [[act r3]|] eqn:Q; [|discriminate]. inversion E; subst d rest. clear E.
  assert (Eq : exists la, r2 = la ++ r3 /\ action_text act la).
  { assert (Hno : p_action sy r2 = Some (None, r2) -> exists la, r2 = la ++ r3 /\ action_text act la)
      by (intros E'; rewrite E' in Q; inversion Q; subst; now exists []).
    destruct r2 as [|[| | | |[] l] r2]; try (apply Hno; reflexivity).
    cbn in Q. destruct (s_block sy l) as [c|] eqn:B; inversion Q; subst. exists [TGroup Brace l]. split; auto. cbn. eauto. }
  destruct Eq as (la & -> & Ta). destruct (skip_semi_sound r3) as (s & Hs & Es).
  exists (TIdent lhs :: TPunct PPath :: TPunct PEq :: lr ++ prec_text p ++ la ++ s), (match p, act, s with None, None, [] => true | _, _, _ => false end).
  splits; [|now constructor|].
  - cbn [app]. do 3 f_equal. rewrite <- !app_assoc. rewrite Ep. do 3 f_equal. exact Es.
  - intros Ho. destruct p; [discriminate|]. destruct act; [discriminate|]. destruct s; [|discriminate].
    cbn in Ta. subst la. cbn [app prec_text] in *. subst r1. now rewrite <- Es.
Qed.

Lemma with_block_sound dc ts d rest : with_block sy dc ts = Some (d, rest) ->
  exists l c s, ts = TGroup Brace l :: s ++ rest /\ d = dc c /\ s_block sy l = Some c /\ semi_opt s.
Proof.
  intros E. destruct ts as [|[| | | |[] l] r]; try discriminate. cbn in E.
  destruct (s_block sy l) as [c|] eqn:B; inversion E; subst. destruct (skip_semi_sound r) as (s & Hs & Es).
  exists l, c, s. splits; auto. now f_equal.
Qed.
Lemma p_ids_sound dc ts d rest : p_ids dc ts = Some (d, rest) -> exists ids, ts = (map TIdent ids ++ [SEMI]) ++ rest /\ d = dc ids.
Proof.
  unfold p_ids. intros E. destruct (p_idents ts) as [[ids r]|] eqn:P; inversion E; subst.
  exists ids. split; auto. rewrite <- app_assoc. now apply p_idents_sound.
Qed.
Lemma p_ident_idents_sound dc ts d rest : p_ident_idents dc ts = Some (d, rest) ->
  exists i ids, ts = (TIdent i :: map TIdent ids ++ [SEMI]) ++ rest /\ d = dc i ids.
Proof.
  unfold p_ident_idents. intros E. destruct ts as [|[i| | | |] r]; try discriminate. cbn [p_ident] in E.
  destruct (p_idents r) as [[ids r']|] eqn:P; inversion E; subst.
  exists i, ids. split; auto. cbn [app]. f_equal. rewrite <- app_assoc. now apply p_idents_sound.
Qed.
Lemma with_semi_sound' {A} (f : list tok -> option (A * list tok)) d ts x rest :
  local f is_semi -> with_semi f d ts = Some (x, rest) ->
  exists a l, x = d a /\ ts = (l ++ [SEMI]) ++ rest /\ takes f is_semi a l.
Proof. intros Hl E. destruct (with_semi_sound f d ts x rest Hl E) as (a & l & H1 & H2 & H3). exists a, l. splits; auto. now rewrite <- app_assoc. Qed.

Lemma p_directive_sound ts d rest : syn_ok -> p_directive sy ts = Some (d, rest) -> exists l, PCT :: ts = l ++ rest /\ decl_text d l false.
Proof.
  intros Hok E. destruct ts as [|[k|k| | |] ts]; try discriminate; cbn [p_directive] in E.
  2:{ destruct (String.eqb_spec k "type") as [->|_]; [|discriminate].
      destruct (p_type_decl_sound _ _ _ Hok E) as (n & id & t & la & lt & -> & -> & Ta & Tt).
      eexists. split; [|now constructor; eauto]. reflexivity. }
  repeat match type of E with
  | context [(k =? ?w)%string] => destruct (String.eqb_spec k w) as [->|_]
  end; try discriminate;
  try (destruct (p_ids_sound _ _ _ _ E) as (ids & -> & ->); eexists; split; [|constructor]; reflexivity);
  try (destruct (p_ident_idents_sound _ _ _ _ E) as (i & ids & -> & ->); eexists; split; [|constructor]; reflexivity);
  try (destruct (with_block_sound _ _ _ _ E) as (l & c & s & -> & -> & B & Hs); eexists; split; [|econstructor; eassumption]; reflexivity);
  try (destruct (with_semi_sound' _ _ _ _ _ (so_type Hok) E) as (t & l & -> & -> & T); eexists; split; [|econstructor; eassumption]; reflexivity);
  try (destruct (with_semi_sound' _ _ _ _ _ p_ident_local E) as (t & l & -> & -> & T); rewrite (p_ident_sound_semi _ _ T); eexists; split; [|constructor]; reflexivity).
  - destruct ts as [|[| | | |[] l] r]; try discriminate. destruct (s_items sy l) as [c|] eqn:B; inversion E; subst.
    destruct (skip_semi_sound r) as (s & Hs & Es). exists (PCT :: word "include" :: TGroup Brace l :: s).
    split; [cbn; now do 3 f_equal|now constructor].
  - destruct (with_semi_sound' _ _ _ _ _ (so_enum Hok) E) as ([n gs] & l & -> & -> & T). eexists; split; [|econstructor; eassumption]; reflexivity.
  - destruct (p_stack_size_sound _ _ _ Hok E) as (n & t & l & -> & -> & T). eexists; split; [|econstructor; eassumption]; reflexivity.
  - destruct ts as [|[| |[]| |] r]; try discriminate. cbn in E. inversion E; subst. eexists; split; [|constructor]; reflexivity.
  - destruct (with_semi_sound' _ _ _ _ _ (so_struct Hok) E) as ([n gs] & l & -> & -> & T). eexists; split; [|econstructor; eassumption]; reflexivity.
Qed.

Lemma p_decl_sound ts d rest : syn_ok -> p_decl sy ts = Some (d, rest) ->
  exists l o, ts = l ++ rest /\ decl_text d l o /\ (o = true -> no_ident rest).
Proof.
  intros Hok E. assert (Hr : p_rule sy ts = Some (d, rest) -> exists l o, ts = l ++ rest /\ decl_text d l o /\ (o = true -> no_ident rest)) by apply p_rule_sound.
  destruct ts as [|[| |[]| |] r]; auto. cbn [p_decl] in E.
  destruct (p_directive_sound _ _ _ Hok E) as (l & El & T). exists l, false. splits; auto. discriminate.
Qed.
Lemma decl_starts d l o : decl_text d l o -> (exists r, l = PCT :: r) \/ (exists s r, l = TIdent s :: r).
Proof. destruct 1; eauto. Qed.
Lemma decls_starts ds l : decls_text ds l -> starts l.
Proof.
  destruct 1 as [|d ds l ls o Hd _ _]; [now left|right].
  destruct (decl_starts _ _ _ Hd) as [(r & ->)|(s & r & ->)]; cbn; eauto.
Qed.

Theorem read_iff ts ds : syn_ok -> (read sy ts = Some ds <-> decls_text ds ts).
Proof.
  intros Hok. unfold read. split.
  - generalize (List.length ts) as n. intros n. revert ts ds. induction n as [|n IH]; intros ts ds E.
    + destruct ts; cbn in E; inversion E. constructor.
    + destruct ts as [|t ts]; [inversion E; constructor|]. cbn [p_decls] in E.
      destruct (p_decl sy (t :: ts)) as [[d r]|] eqn:P; [|discriminate].
      destruct (p_decls sy n r) as [ds'|] eqn:Q; inversion E; subst.
      destruct (p_decl_sound _ _ _ Hok P) as (l & o & -> & T & Ho).
      assert (Td := IH _ _ Q). apply ds_cons with o; auto. intros E'. specialize (Ho E').
      destruct (decls_starts _ _ Td) as [->|[(x & ->)|(s & x & ->)]]; eauto. contradiction Ho.
  - intros T. assert (H : forall n, List.length ts <= n -> p_decls sy n ts = Some ds); [|now apply H].
    induction T as [|d ds l ls o Hd Hds IH Ho]; intros n Hn; [destruct n; reflexivity|].
    rewrite app_length in Hn.
    assert (P := p_decl_text _ _ _ ls Hok Hd (decls_starts _ _ Hds) Ho).
    assert (L : exists t l', l = t :: l') by (destruct (decl_starts _ _ _ Hd) as [(r & ->)|(s & r & ->)]; eauto).
    destruct L as (t & l' & ->). cbn in Hn. destruct n as [|n]; [lia|]. cbn [app p_decls]. cbn [app] in P.
    rewrite P, IH by lia. reflexivity.
Qed.

(** A text has one reading *)
Theorem text_unique ts ds1 ds2 : syn_ok -> decls_text ds1 ts -> decls_text ds2 ts -> ds1 = ds2.
Proof. intros Hok H1 H2. apply read_iff in H1, H2; auto. congruence. Qed.

(** Every right-hand-side element that is read has a name *)
Theorem read_named ts ds : read sy ts = Some ds -> syn_ok -> elems_named ds.
Proof.
  intros E Hok. apply read_iff in E; auto. intros lhs rhs c p toks o al Hin Hel.
  induction E as [|d ds l ls o' Hd Hds IH Ho]; [destruct Hin|]. destruct Hin as [->|Hin]; auto.
  inversion Hd; subst.
  match goal with H : elems_text rhs _ |- _ => clear - H Hel; rename H into He end.
  induction He as [|e es l ls He Hes IH]; [destruct Hel|]. destruct Hel as [->|Hel]; auto.
  destruct He as (ln & la & Tn & _). destruct Tn; discriminate.
Qed.
End Text.
