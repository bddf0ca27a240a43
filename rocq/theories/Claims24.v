(** Renaming the symbols changes nothing but the names (C49). *)
From Verif Require Import Base Syntax BaseFacts FrontEnd First States Actions Tables Runtime User DeclSpec PipeFacts Main Rename RenameBack.
Open Scope string_scope. Open Scope nat_scope. Open Scope list_scope.

(** Two parsers that do the same with every token stream, call by call, for the same user code:
    they return the same, run the same blocks and end in the same state. *)
Definition same_parser (b b' : built) : Prop :=
  (forall V X E (sm : sem V X E) n p k, api_parse n (bt_tables b') sm p k = api_parse n (bt_tables b) sm p k) /\
  (forall V X E (sm : sem V X E) n p, end_of_input n (bt_tables b') (user_hooks (bt_tables b') sm) p = end_of_input n (bt_tables b) (user_hooks (bt_tables b) sm) p) /\
  (forall V X E (sm : sem V X E) n x ks, api_run n (bt_tables b') sm x ks = api_run n (bt_tables b) sm x ks).

Lemma built_same u b b' : ren_built u b b' -> same_parser b b' /\ t_names (bt_tables b') = map (rename u) (t_names (bt_tables b)).
Proof.
  intros (_ & _ & _ & _ & _ & E). split; [|now rewrite E]. unfold same_parser. rewrite E. splits; intros; [apply api_parse_same|apply eoi_same|apply api_run_same].
Qed.
Theorem renaming_same u ds : renaming u ds ->
  (forall b, expands ds b -> exists b', expands (map (ren_decl u) ds) b' /\ same_parser b b' /\ t_names (bt_tables b') = map (rename u) (t_names (bt_tables b))) /\
  (forall b', expands (map (ren_decl u) ds) b' -> exists b, expands ds b /\ same_parser b b' /\ t_names (bt_tables b') = map (rename u) (t_names (bt_tables b))).
Proof.
  intros RN. split; intros b (fuel & ord & HO & HB); pose proof (renamed_build u ds RN fuel ord) as HS; rewrite HB in HS.
  - destruct (build fuel ord (map (ren_decl u) ds)) as [b'| | |] eqn:E; try contradiction. exists b'. split; [now exists fuel, ord|]. apply built_same, HS.
  - destruct (build fuel ord ds) as [b0| | |] eqn:E; try contradiction. exists b0. split; [now exists fuel, ord|]. apply built_same, HS.
Qed.
(** It is also refused alike: with the same error, and it panics alike. *)
Theorem renaming_refused u ds : renaming u ds -> forall fuel ord,
  (forall e, build fuel ord ds = GErr e <-> build fuel ord (map (ren_decl u) ds) = GErr e) /\
  (build fuel ord ds = GPanic <-> build fuel ord (map (ren_decl u) ds) = GPanic) /\
  (build fuel ord ds = GFuel <-> build fuel ord (map (ren_decl u) ds) = GFuel).
Proof.
  intros RN fuel ord. pose proof (renamed_build u ds RN fuel ord) as HS. destruct (build fuel ord ds), (build fuel ord (map (ren_decl u) ds)); try contradiction; splits; try (split; discriminate); try (split; auto; fail); intros e1; split; try discriminate; cbn in HS; congruence.
Qed.
