(** What an accepted input means when some of its tokens were wrong (C44). *)
From Verif Require Import Base Syntax BaseFacts FrontEnd First States Actions Tables Runtime User Spec WfGrammar FirstFacts ClosureFacts AutoFacts LalrFacts ActFacts CompFacts LookFacts PipeFacts RunFacts FrontFacts
  SoundFacts SafeFacts BuildFacts DeclSpec DeclFacts GramFacts LangFacts TypeFacts MeanSpec MeanFacts TypeDecl Main DeclMore Claims3 Claims18 MendSpec MendFacts.
Open Scope string_scope. Open Scope nat_scope. Open Scope list_scope.

Section Accepted.
Context (ds : list decl) (b : built) (EX : expands ds b) (US : usable ds b).
Notation g := (bt_grammar b).
Notation t := (bt_tables b).
Let P := ex_pipe ds b EX US.
Let W := ex_wf ds b EX.

Lemma combine_valued {V X E} (sm : sem V X E) ks fs : map (valued t sm) (combine ks fs) = combine (map (token_value t sm) ks) fs.
Proof. revert fs. induction ks as [|k ks IH]; intros [|f fs]; cbn; auto. now rewrite IH. Qed.

Theorem mended_means {V X E} (sm : sem V X E) n x ks r x' pp : tokens_wf b ks -> api_run n t sm x ks = ROk (r, x') pp ->
  exists s v, start_of ds = Some s /\ List.length (fates (ps_log pp)) = List.length ks /\
    mended ds sm (taken ds) (fun k => tok_name b (fst k)) s (combine ks (fates (ps_log pp))) x x' v /\ r = root_value ds sm s v.
Proof.
  intros Hk H. destruct (reading_eq ds b EX US sm ks Hk) as (_ & _ & Hok). destruct (ex_decl ds b EX) as (opts & DE). destruct (de_start _ _ _ DE) as (s & Hs & As & Low).
  destruct (run_mended _ _ _ _ _ P (user_hooks t sm) n x _ r x' pp Hok H) as (fs & q & ru & ms & m & x1 & L & Hr & Hst & HG & Hh & Ha & HF). rewrite map_length in L. rewrite HF. exists s, (snd m). splits; auto.
  - refine (proj1 (proj1 (gm_mended ds g opts DE _ _ _ _ P sm _ _ (err_eq ds b EX)) (g_start g) (combine (map (token_value t sm) ks) fs) x x' m _ _ _ _) s As (or_intror Low)).
    + intros k Hw. apply (name_eq ds b EX US). destruct Hw as [[_ Hw] _]. now rewrite (nterm_eq ds b EX US) in Hw.
    + rewrite <- Hst. eapply gm_rule; eauto.
    + apply combine_valued.
    + apply Forall_forall. intros [k f] Hin. apply in_combine_l in Hin. cbn [fst]. exact (proj1 (Forall_forall _ _) Hk k Hin).
  - apply (root_at ds b EX US sm m r s); auto.
    assert (Lr : q < List.length (g_rules g)) by (apply nth_error_Some; congruence). destruct (rule_entry _ _ _ _ _ P q Lr) as (rr & Hrr & HL & _ & _ & Hdt & _).
    cbn in Hh. unfold rule_reduce in Hh. rewrite (nth_error_nth _ _ _ Hrr) in Hh. destruct (match_args _ ms); [|discriminate]. destruct (run_code _ _ _ x1) as [[x3 [v|e]]|]; try discriminate.
    injection Hh as _ <-. cbn [fst]. rewrite Hdt. unfold grule. now rewrite (nth_error_nth _ _ _ Hr), Hst.
Qed.
End Accepted.

(** ** Two special cases *)
Section Special.
Context (ds : list decl) {V X E : Type} (sm : sem V X E) (tk : ident -> ident -> Prop) (nm : token V -> ident).
Definition kept (w : list (token V * fate)) : list (ident * V) := flat_map (fun q => match snd q with Shifted => [(nm (fst q), payload sm (fst q))] | _ => [] end) w.
Lemma kept_app w1 w2 : kept (w1 ++ w2) = kept w1 ++ kept w2.
Proof. apply flat_map_app. Qed.

(** Either nothing was wrong, or [error] is not mentioned and the %syntax_error block leaves
    the extra value alone: the tokens that were not dropped are a reading as in C01. *)
Theorem kept_means n w x x' v : Forall (fun q => snd q = Shifted) w \/ (~ mentions ds "error" /\ forall k y y' u, report sm k y y' u -> y' = y) ->
  mended ds sm tk nm n w x x' v -> means ds sm tk n (kept w) x x' v.
Proof.
  intros HC HM. revert n w x x' v HM HC.
  apply (mended_mind ds V X E sm tk nm
    (fun n w x x' v => Forall (fun q => snd q = Shifted) w \/ (~ mentions ds "error" /\ forall k y y' u, report sm k y y' u -> y' = y) -> means ds sm tk n (kept w) x x' v)
    (fun e w x x' v => Forall (fun q => snd q = Shifted) w \/ (~ mentions ds "error" /\ forall k y y' u, report sm k y y' u -> y' = y) -> means_elem ds sm tk e (kept w) x x' v)
    (fun es w x x' vs => Forall (fun q => snd q = Shifted) w \/ (~ mentions ds "error" /\ forall k y y' u, report sm k y y' u -> y' = y) -> means_all ds sm tk es (kept w) x x' vs)).
  - intros k c n x Ht Hs _. cbn. econstructor; eauto.
  - intros d w vs v x x1 x2 Hd _ IH Hr HC. econstructor; eauto.
  - intros es w vs k v x x1 x2 Hm _ _ _ _ [HF|[Hn _]]; [|contradiction]. apply Forall_app in HF as [_ HF]. inversion HF; discriminate.
  - intros es w1 w2 vs k v x x1 x2 Hm _ _ _ _ _ [HF|[Hn _]]; [|contradiction]. apply Forall_app in HF as [_ HF]. apply Forall_app in HF as [_ HF]. inversion HF; discriminate.
  - intros n al w x x' v _ IH HC. constructor. auto.
  - intros n al w x x' _ IH HC. specialize (IH HC). inversion IH; subst. constructor.
  - intros n al w x x' v _ IH HC. specialize (IH HC). inversion IH as [|e es w1 w2 y y1 y2 u us He Hes]; subst. inversion Hes; subst. rewrite app_nil_r. inversion He; subst; [now constructor|]. match goal with H : 2 <= List.length [_] |- _ => cbn in H; lia end.
  - intros ns o al k c x Hl Ht Hb _. cbn. econstructor; eauto.
  - intros x _. constructor.
  - intros e es w1 w2 x x1 x2 v vs _ IH1 _ IH2 HC. rewrite kept_app. econstructor; [apply IH1|apply IH2]; (destruct HC as [HF|HC]; [left; apply Forall_app in HF as [F1 F2]; assumption|right; exact HC]).
  - intros es k f w vs x x1 x2 Hn Hp _ IH HC. destruct f; cbn in Hp; [destruct Hp| |].
    + destruct HC as [HF|HC]; [inversion HF; discriminate|]. destruct Hp as (u & Hp). apply (proj2 HC) in Hp. subst x1. exact (IH (or_intror HC)).
    + destruct HC as [HF|HC]; [inversion HF; discriminate|]. subst x1. exact (IH (or_intror HC)).
Qed.
End Special.

(** Nothing was dropped exactly when every token was shifted *)
Lemma told_dropped l : (exists a, In (EvDrop a) l) <-> exists f, In f (snd (told l)) /\ f <> Shifted.
Proof.
  induction l as [|e l IH]; cbn [told].
  - split; [intros (a & [])|intros (f & [] & _)].
  - destruct (told l) as [r fs]. cbn [snd] in IH.
    assert (HO : (exists a, In (EvDrop a) (e :: l)) <-> (exists a, e = EvDrop a) \/ exists f, In f fs /\ f <> Shifted).
    { rewrite <- IH. split; [intros (a & [->|H]); eauto|intros [(a & ->)|(a & H)]; [exists a; now left|exists a; now right]]. }
    rewrite HO. destruct e; cbn [snd]; (split; [intros [(a & Ha)|(f & Hf & Hn)]; try discriminate; eauto using in_or_app|]).
    all: try (intros (f & Hf & Hn); right; eauto; fail).
    + intros (f & Hf & Hn). apply in_app_iff in Hf as [Hf|[<-|[]]]; [right; eauto|congruence].
    + exists (if r then Reported else Silent). split; [apply in_app_iff; right; now left|destruct r; discriminate].
    + intros _. left. eauto.
Qed.
Theorem shifted_all {M X R} (pp : parser M X R) : ~ dropped pp <-> Forall (fun f => f = Shifted) (fates (ps_log pp)).
Proof.
  unfold dropped, fates. rewrite told_dropped, Forall_forall. split.
  - intros H f Hf. destruct f; auto; exfalso; apply H; eexists; split; eauto; discriminate.
  - intros H (f & Hf & Hn). apply Hn, H, Hf.
Qed.
