(** Two grammars that differ in how their symbols and rules are numbered: items, lookaheads and
    moves correspond (C46). *)
From Verif Require Import Base Syntax BaseFacts FrontEnd First States Actions Spec WfGrammar ActFacts FaultSpec LalrFacts.

Definition flip {A B} (P : A -> B -> Prop) (b : B) (a : A) : Prop := P a b.
Definition kind_alike (S : nat -> nat -> Prop) (k1 k2 : kind) : Prop :=
  match k1, k2 with
  | KTerm, KTerm | KNonTerm, KNonTerm => True
  | KMulti ms, KMulti ms' => Forall2 S ms ms'
  | _, _ => False
  end.
Record made_alike (S : nat -> nat -> Prop) (ru qu : rule) : Prop := {
  ma_lhs : S (r_lhs ru) (r_lhs qu);
  ma_rhs : Forall2 S (map fst (r_rhs ru)) (map fst (r_rhs qu));
  ma_prec : r_prec qu = r_prec ru }.
(** [S X Y]: symbol [X] of [g1] is symbol [Y] of [g2]; [R r q]: rule [r] of [g1] is rule [q] of
    [g2]. *)
Record iso (g1 g2 : grammar) (S R : nat -> nat -> Prop) : Prop := {
  io_fun : forall X Y Y', S X Y -> S X Y' -> Y = Y';
  io_inj : forall X X' Y, S X Y -> S X' Y -> X = X';
  io_rfun : forall r q q', R r q -> R r q' -> q = q';
  io_rinj : forall r r' q, R r q -> R r' q -> r = r';
  io_zero : S 0 0;
  io_start : S (g_start g1) (g_start g2);
  io_kind : forall X Y, S X Y -> exists k1 k2, kind_at g1 X = Some k1 /\ kind_at g2 Y = Some k2 /\ kind_alike S k1 k2;
  io_prec : forall X Y, S X Y -> sy_prec (gsym g2 Y) = sy_prec (gsym g1 X);
  io_nterm : forall X Y, S X Y -> X < g_nterm g1 <-> Y < g_nterm g2;
  io_rule : forall r q, R r q -> exists ru qu, nth_error (g_rules g1) r = Some ru /\ nth_error (g_rules g2) q = Some qu /\ made_alike S ru qu;
  io_to : forall r, r < List.length (g_rules g1) -> exists q, R r q;
  io_from : forall q, q < List.length (g_rules g2) -> exists r, R r q }.

Lemma kind_flip S k1 k2 : kind_alike S k1 k2 -> kind_alike (flip S) k2 k1.
Proof. destruct k1, k2; cbn; auto. induction 1; constructor; auto. Qed.
Lemma forall2_flip {A B} (P : A -> B -> Prop) l m : Forall2 P l m -> Forall2 (flip P) m l.
Proof. induction 1; constructor; auto. Qed.
Lemma made_flip S ru qu : made_alike S ru qu -> made_alike (flip S) qu ru.
Proof. intros [A1 A2 A3]. constructor; auto. now apply forall2_flip. Qed.
Lemma iso_flip g1 g2 S R : iso g1 g2 S R -> iso g2 g1 (flip S) (flip R).
Proof.
  intros []. constructor; unfold flip in *; eauto.
  - intros X Y H. destruct (io_kind0 _ _ H) as (k1 & k2 & K1 & K2 & K). exists k2, k1. splits; auto. now apply kind_flip.
  - intros X Y H. symmetry. auto.
  - intros X Y H. symmetry. auto.
  - intros r q H. destruct (io_rule0 _ _ H) as (ru & qu & H1 & H2 & M). exists qu, ru. splits; auto. now apply made_flip.
Qed.
Lemma forall2_nth {A B} (P : A -> B -> Prop) l m : Forall2 P l m -> forall i a, nth_error l i = Some a -> exists b, nth_error m i = Some b /\ P a b.
Proof. induction 1 as [|x y l m H F IH]; intros [|i] a Hi; try discriminate; cbn in *; [injection Hi as <-; eauto|eauto]. Qed.
Lemma forall2_skipn {A B} (P : A -> B -> Prop) l m : Forall2 P l m -> forall i, Forall2 P (skipn i l) (skipn i m).
Proof. induction 1 as [|x y l m H F IH]; intros [|i]; cbn; auto. Qed.
Lemma forall2_det {A B} (P : A -> B -> Prop) : (forall a b b', P a b -> P a b' -> b = b') -> forall l m m', Forall2 P l m -> Forall2 P l m' -> m = m'.
Proof. intros HD. induction l as [|a l IH]; intros m m' H1 H2; inversion H1; subst; inversion H2; subst; auto. f_equal; eauto. Qed.
Lemma forall2_lt {A B} (P : A -> B -> Prop) l m : Forall2 P l m -> List.length l = List.length m.
Proof. induction 1; cbn; auto. Qed.

Section One.
Context (g1 g2 : grammar) (S R : nat -> nat -> Prop) (IO : iso g1 g2 S R).

Lemma io_rhs ru qu d X al : made_alike S ru qu -> nth_error (r_rhs ru) d = Some (X, al) -> exists Y bl, nth_error (r_rhs qu) d = Some (Y, bl) /\ S X Y.
Proof.
  intros M H. destruct (forall2_nth _ _ _ (ma_rhs _ _ _ M) d X) as (Y & HY & HS); [now rewrite nth_error_map, H|]. rewrite nth_error_map in HY. destruct (nth_error (r_rhs qu) d) as [[Y' bl]|] eqn:E; [|discriminate].
  injection HY as <-. eauto.
Qed.
Lemma io_rest ru qu d : made_alike S ru qu -> Forall2 S (map fst (skipn d (r_rhs ru))) (map fst (skipn d (r_rhs qu))).
Proof. intros M. rewrite <- !skipn_map. apply forall2_skipn, M. Qed.
Lemma io_len ru qu : made_alike S ru qu -> List.length (r_rhs ru) = List.length (r_rhs qu).
Proof. intros M. apply ma_rhs, forall2_lt in M. now rewrite !map_length in M. Qed.
Lemma io_partner r ru : nth_error (g_rules g1) r = Some ru -> exists q qu, R r q /\ nth_error (g_rules g2) q = Some qu /\ made_alike S ru qu.
Proof.
  intros H. destruct (io_to _ _ _ _ IO r) as [q Hq]; [apply nth_error_Some; congruence|]. destruct (io_rule _ _ _ _ IO _ _ Hq) as (ru' & qu & H1 & H2 & M). assert (ru' = ru) as -> by congruence. eauto.
Qed.
Lemma io_known r q ru : R r q -> nth_error (g_rules g1) r = Some ru -> exists qu, nth_error (g_rules g2) q = Some qu /\ made_alike S ru qu.
Proof. intros HR H. destruct (io_rule _ _ _ _ IO _ _ HR) as (ru' & qu & H1 & H2 & M). assert (ru' = ru) as -> by congruence. eauto. Qed.
Lemma io_member a X Y : member g1 a X -> S X Y -> exists b, S a b /\ member g2 b Y.
Proof.
  intros [[-> HT]|(ms & K & Hin)] HS; destruct (io_kind _ _ _ _ IO _ _ HS) as (k1 & k2 & K1 & K2 & KA).
  - unfold is_term in HT. assert (k1 = KTerm) as -> by congruence. destruct k2; try contradiction. exists Y. split; auto. left. auto.
  - assert (k1 = KMulti ms) as -> by congruence. destruct k2 as [| |ms']; try contradiction. cbn in KA. apply In_nth_error in Hin as [i Hi]. destruct (forall2_nth _ _ _ KA _ _ Hi) as (b & Hb & HSb). exists b. split; auto. right. exists ms'. split; auto. eapply nth_error_In; eauto.
Qed.
Lemma io_nullable : (forall X, nullable g1 X -> forall Y, S X Y -> nullable g2 Y) /\ (forall Xs, nullable_all g1 Xs -> forall Ys, Forall2 S Xs Ys -> nullable_all g2 Ys).
Proof.
  apply nullable_both.
  - intros r ru H _ IH Y HS. destruct (io_partner _ _ H) as (q & qu & _ & Hq & M). rewrite (io_fun _ _ _ _ IO _ _ _ HS (ma_lhs _ _ _ M)). eapply n_rule; eauto. apply IH, M.
  - intros Ys H. inversion H. constructor.
  - intros X Xs _ IH1 _ IH2 Ys H. inversion H; subst. constructor; auto.
Qed.
Lemma io_first a b : S a b -> (forall X, first g1 a X -> forall Y, S X Y -> first g2 b Y) /\ (forall Xs, first_all g1 a Xs -> forall Ys, Forall2 S Xs Ys -> first_all g2 b Ys).
Proof.
  intros Hab. apply first_both.
  - intros X H Y HS. apply f_term. destruct (io_member _ _ _ H HS) as (b' & Hb & HM). now rewrite (io_fun _ _ _ _ IO _ _ _ Hab Hb).
  - intros r ru H _ IH Y HS. destruct (io_partner _ _ H) as (q & qu & _ & Hq & M). rewrite (io_fun _ _ _ _ IO _ _ _ HS (ma_lhs _ _ _ M)). eapply f_rule; eauto. apply IH, M.
  - intros X Xs _ IH Ys H. inversion H; subst. apply f_here; auto.
  - intros X Xs HN _ IH Ys H. inversion H; subst. apply f_skip; [eapply io_nullable; eauto|auto].
Qed.
Lemma io_first_has a : (forall X, first g1 a X -> forall Y, S X Y -> exists b, S a b) /\ (forall Xs, first_all g1 a Xs -> forall Ys, Forall2 S Xs Ys -> exists b, S a b).
Proof.
  apply first_both.
  - intros X H Y HS. destruct (io_member _ _ _ H HS) as (b' & Hb & _). eauto.
  - intros r ru H _ IH Y HS. destruct (io_partner _ _ H) as (q & qu & _ & Hq & M). eapply IH, M.
  - intros X Xs _ IH Ys H. inversion H; subst. eauto.
  - intros X Xs HN _ IH Ys H. inversion H; subst. eauto.
Qed.
Lemma io_lr0_has gamma r d : lr0 g1 gamma r d -> exists delta q, R r q /\ Forall2 S gamma delta /\ lr0 g2 delta q d.
Proof.
  induction 1 as [r ru H Hs|gamma r ru d X al _ IH H HX|gamma r ru d X al q qu _ IH H HX Hq E].
  - destruct (io_partner _ _ H) as (q & qu & HR & Hq & M). exists [], q. splits; auto. eapply lr0_start; eauto. eapply (io_fun _ _ _ _ IO); [apply M|]. rewrite Hs. apply IO.
  - destruct IH as (delta & q & HR & HG & HL). destruct (io_known _ _ _ HR H) as (qu & Hq & M). destruct (io_rhs _ _ _ _ _ M HX) as (Y & bl & HY & HS).
    exists (delta ++ [Y]), q. splits; auto; [apply Forall2_app; auto|]. eapply lr0_shift; eauto.
  - destruct IH as (delta & q' & HR & HG & HL). destruct (io_known _ _ _ HR H) as (qu' & Hq' & M). destruct (io_rhs _ _ _ _ _ M HX) as (Y & bl & HY & HS).
    destruct (io_partner _ _ Hq) as (q2 & qu2 & HR2 & Hq2 & M2). exists delta, q2. splits; auto. eapply lr0_closure; eauto. eapply (io_fun _ _ _ _ IO); [apply M2|]. now rewrite E.
Qed.
Lemma io_lr0 gamma r d delta q : lr0 g1 gamma r d -> R r q -> Forall2 S gamma delta -> lr0 g2 delta q d.
Proof.
  intros H HR HG. destruct (io_lr0_has _ _ _ H) as (delta' & q' & HR' & HG' & HL). rewrite (forall2_det _ (io_fun _ _ _ _ IO) _ _ _ HG HG'), (io_rfun _ _ _ _ IO _ _ _ HR HR'). exact HL.
Qed.
Lemma io_lr1_has gamma r d a : lr1 g1 gamma r d a -> exists delta q b, R r q /\ Forall2 S gamma delta /\ S a b /\ lr1 g2 delta q d b.
Proof.
  induction 1 as [r ru H Hs|gamma r ru d b X al _ IH H HX|gamma r ru d X al q qu b H0 H HX Hq E HF|gamma r ru d X al q qu b _ IH H HX Hq E HN].
  - destruct (io_partner _ _ H) as (q & qu & HR & Hq & M). exists [], q, 0. splits; auto; [apply IO|]. eapply lr1_start; eauto. eapply (io_fun _ _ _ _ IO); [apply M|]. rewrite Hs. apply IO.
  - destruct IH as (delta & q & c & HR & HG & HC & HL). destruct (io_known _ _ _ HR H) as (qu & Hq & M). destruct (io_rhs _ _ _ _ _ M HX) as (Y & bl & HY & HS).
    exists (delta ++ [Y]), q, c. splits; auto; [apply Forall2_app; auto|]. eapply lr1_shift; eauto.
  - destruct (io_lr0_has _ _ _ H0) as (delta & q' & HR & HG & HL). destruct (io_known _ _ _ HR H) as (qu' & Hq' & M). destruct (io_rhs _ _ _ _ _ M HX) as (Y & bl & HY & HS).
    destruct (io_partner _ _ Hq) as (q2 & qu2 & HR2 & Hq2 & M2). destruct (proj2 (io_first_has b) _ HF _ (io_rest _ _ _ M)) as (c & HC). exists delta, q2, c. splits; auto.
    eapply lr1_first; eauto; [|exact (proj2 (io_first _ _ HC) _ HF _ (io_rest _ _ _ M))]. eapply (io_fun _ _ _ _ IO); [apply M2|]. now rewrite E.
  - destruct IH as (delta & q' & c & HR & HG & HC & HL). destruct (io_known _ _ _ HR H) as (qu' & Hq' & M). destruct (io_rhs _ _ _ _ _ M HX) as (Y & bl & HY & HS).
    destruct (io_partner _ _ Hq) as (q2 & qu2 & HR2 & Hq2 & M2). exists delta, q2, c. splits; auto.
    eapply lr1_null; eauto; [|exact (proj2 io_nullable _ HN _ (io_rest _ _ _ M))]. eapply (io_fun _ _ _ _ IO); [apply M2|]. now rewrite E.
Qed.
End One.

(** Corresponding moves *)
Definition move_alike (S R : nat -> nat -> Prop) (m m' : move) : Prop :=
  match m, m' with MShift X, MShift Y => S X Y | MReduce r, MReduce q => R r q | _, _ => False end.

Section Two.
Context (g1 g2 : grammar) (S R : nat -> nat -> Prop) (IO : iso g1 g2 S R).
Let OI := iso_flip _ _ _ _ IO.

Lemma io_lr0_back gamma r d delta q : lr0 g2 delta q d -> R r q -> Forall2 S gamma delta -> lr0 g1 gamma r d.
Proof. intros H HR HG. exact (io_lr0 _ _ _ _ OI _ _ _ _ _ H HR (forall2_flip _ _ _ HG)). Qed.
Lemma io_alike gamma gamma' delta delta' : alike g1 gamma gamma' -> Forall2 S gamma delta -> Forall2 S gamma' delta' -> alike g2 delta delta'.
Proof.
  assert (HX : forall gm gm' de de', alike g1 gm gm' -> Forall2 S gm de -> Forall2 S gm' de' -> forall q d, lr0 g2 de q d -> lr0 g2 de' q d).
  { intros gm gm' de de' HA H1 H2 q d H. destruct (io_lr0_has _ _ _ _ OI _ _ _ H) as (gm0 & r & HR & HG & H0). unfold flip in HR. apply (io_lr0 _ _ _ _ IO gm' r d); auto. apply HA. eapply io_lr0_back; eauto. }
  intros HA H1 H2 q d. split; [exact (HX _ _ _ _ HA H1 H2 q d)|]. apply (HX gamma' gamma delta' delta); auto. intros r e. symmetry. apply HA.
Qed.
Lemma io_offers gamma a m : offers g1 gamma a m -> exists delta b m', Forall2 S gamma delta /\ S a b /\ move_alike S R m m' /\ offers g2 delta b m'.
Proof.
  intros [r ru d X al H1 H2 H3 H4|gamma' r ru H1 H2 H3 H4].
  - destruct (io_lr0_has _ _ _ _ IO _ _ _ H1) as (delta & q & HR & HG & HL). destruct (io_known _ _ _ _ IO _ _ _ HR H2) as (qu & Hq & M). destruct (io_rhs S _ _ _ _ _ M H3) as (Y & bl & HY & HS).
    destruct (io_member _ _ _ _ IO _ _ _ H4 HS) as (b & Hb & HM). exists delta, b, (MShift Y). splits; auto. eapply of_shift; eauto.
  - destruct (io_lr1_has _ _ _ _ IO _ _ _ _ H3) as (delta' & q & b & HR & HG & Hb & HL). destruct (io_known _ _ _ _ IO _ _ _ HR H2) as (qu & Hq & M).
    assert (H0 : lr0 g1 gamma r (List.length (r_rhs ru))) by (apply H1; eapply lr1_lr0; eauto). destruct (io_lr0_has _ _ _ _ IO _ _ _ H0) as (delta & q' & HR' & HG' & HL').
    exists delta, b, (MReduce q). splits; auto. eapply of_reduce; [eapply io_alike; eauto|eauto| |].
    + now rewrite <- (io_len S _ _ M).
    + now apply (io_nterm _ _ _ _ IO _ _ Hb).
Qed.
Lemma move_fun m m' m'' : move_alike S R m m' -> move_alike S R m m'' -> m' = m''.
Proof. destruct m, m', m''; cbn; try contradiction; intros H1 H2; f_equal; [eapply (io_fun _ _ _ _ IO); eauto|eapply (io_rfun _ _ _ _ IO); eauto]. Qed.
Lemma move_inj m m' m'' : move_alike S R m' m -> move_alike S R m'' m -> m' = m''.
Proof. destruct m, m', m''; cbn; try contradiction; intros H1 H2; f_equal; [eapply (io_inj _ _ _ _ IO); eauto|eapply (io_rinj _ _ _ _ IO); eauto]. Qed.
Lemma move_flip m m' : move_alike S R m m' <-> move_alike (flip S) (flip R) m' m.
Proof. destruct m, m'; cbn; tauto. Qed.
Lemma io_offers_at gamma a m delta b : offers g1 gamma a m -> Forall2 S gamma delta -> S a b -> exists m', move_alike S R m m' /\ offers g2 delta b m'.
Proof.
  intros H HG Hb. destruct (io_offers _ _ _ H) as (delta' & b' & m' & HG' & Hb' & HM & HO). exists m'. split; auto.
  now rewrite (forall2_det _ (io_fun _ _ _ _ IO) _ _ _ HG HG'), (io_fun _ _ _ _ IO _ _ _ Hb Hb').
Qed.
Lemma io_grule r q : R r q -> r_prec (grule g2 q) = r_prec (grule g1 r).
Proof. intros HR. destruct (io_rule _ _ _ _ IO _ _ HR) as (ru & qu & H1 & H2 & M). rewrite (grule_nth _ _ _ H1), (grule_nth _ _ _ H2). apply M. Qed.
Lemma io_says a b m m' : S a b -> move_alike S R m m' -> says_prec g2 b m' = says_prec g1 a m.
Proof. destruct m, m'; cbn; try contradiction; intros HS HM; [now apply (io_prec _ _ _ _ IO)|now apply io_grule]. Qed.
End Two.

(** Rules with a precedence that are possible at the same place are in the same order. *)
Definition ordered (g1 : grammar) (R : nat -> nat -> Prop) : Prop := forall gamma a r r' q q', offers g1 gamma a (MReduce r) -> offers g1 gamma a (MReduce r') ->
  r_prec (grule g1 r) <> None -> r_prec (grule g1 r') <> None -> R r q -> R r' q' -> r < r' <-> q < q'.

Section Order.
Context (g1 g2 : grammar) (S R : nat -> nat -> Prop) (IO : iso g1 g2 S R) (OR : ordered g1 R).
Let OI := iso_flip _ _ _ _ IO.

Lemma offers_back delta b m' : offers g2 delta b m' -> exists gamma a m, Forall2 S gamma delta /\ S a b /\ move_alike S R m m' /\ offers g1 gamma a m.
Proof.
  intros H. destruct (io_offers _ _ _ _ OI _ _ _ H) as (gamma & a & m & HG & Ha & HM & HO). exists gamma, a, m. splits; auto; [now apply forall2_flip in HG|now apply move_flip].
Qed.
Lemma offers_back_at gamma a delta b m' : offers g2 delta b m' -> Forall2 S gamma delta -> S a b -> exists m, move_alike S R m m' /\ offers g1 gamma a m.
Proof.
  intros H HG Ha. destruct (io_offers_at _ _ _ _ OI _ _ _ _ _ H (forall2_flip _ _ _ HG) Ha) as (m & HM & HO). exists m. split; auto. now apply move_flip.
Qed.
Lemma ordered_flip : ordered g2 (flip R).
Proof.
  intros delta b q q' r r' H1 H2 P1 P2 R1 R2. unfold flip in *. destruct (offers_back _ _ _ H1) as (gamma & a & m & HG & Ha & HM & HO). destruct (offers_back_at _ _ _ _ _ H2 HG Ha) as (m2 & HM2 & HO2).
  destruct m as [|r0]; [contradiction|]. destruct m2 as [|r2]; [contradiction|]. cbn in HM, HM2. rewrite (io_rinj _ _ _ _ IO _ _ _ R1 HM), (io_rinj _ _ _ _ IO _ _ _ R2 HM2).
  symmetry. apply (OR gamma a r0 r2 q q'); auto; rewrite <- (io_grule _ _ _ _ IO _ _ HM) || rewrite <- (io_grule _ _ _ _ IO _ _ HM2); auto.
Qed.
Lemma io_prefers gamma a delta b r q m m' : offers g1 gamma a (MReduce r) -> offers g1 gamma a m -> Forall2 S gamma delta -> S a b -> R r q -> move_alike S R m m' -> prefers g1 a r m -> prefers g2 b q m'.
Proof.
  intros Hr Hm HG Ha HR HM (i & j & u & v & S1 & S2 & HQ). exists i, j, u, v. rewrite (io_says _ _ _ _ IO _ _ _ _ Ha HM), (io_grule _ _ _ _ IO _ _ HR). splits; auto.
  destruct HQ as [L|[-> HQ]]; auto. right. split; auto. destruct m as [X|x], m' as [Y|y]; try contradiction; auto. cbn in S2, HM.
  assert (N1 : r_prec (grule g1 r) <> None) by congruence. assert (N2 : r_prec (grule g1 x) <> None) by congruence.
  destruct HQ as [[L ->]|[L ->]]; [left|right]; split; auto; [apply (OR gamma a x r y q); auto|apply (OR gamma a r x q y); auto].
Qed.
Lemma io_outranked gamma a delta b i r r' q q' : offers g1 gamma a (MReduce r) -> offers g1 gamma a (MReduce r') -> Forall2 S gamma delta -> S a b -> R r q -> R r' q' ->
  r_prec (grule g1 r) <> None -> r_prec (grule g1 r') <> None -> outranked g2 delta b i (Nat.max q q') -> outranked g1 gamma a i (Nat.max r r').
Proof.
  intros H1 H2 HG Ha R1 R2 P1 P2 (m' & j & v & Hm & Hs & L & HQ). destruct (offers_back_at _ _ _ _ _ Hm HG Ha) as (m & HM & HO). rewrite (io_says _ _ _ _ IO _ _ _ _ Ha HM) in Hs. exists m, j, v. splits; auto.
  destruct m as [X|x], m' as [Y|y]; try contradiction; auto. cbn in HM, Hs. assert (N : r_prec (grule g1 x) <> None) by congruence.
  pose proof (OR gamma a x r y q HO H1 N P1 HM R1). pose proof (OR gamma a x r' y q' HO H2 N P2 HM R2). lia.
Qed.
Lemma io_conflict gamma a : conflict_at g1 gamma a -> exists delta b, conflict_at g2 delta b.
Proof.
  intros [(m & m' & H1 & H2 & Hne & HO)|(X & ms & H1 & H2 & H3)].
  - destruct (io_offers _ _ _ _ IO _ _ _ H1) as (delta & b & n & HG & Hb & HM & Hn). destruct (io_offers_at _ _ _ _ IO _ _ _ _ _ H2 HG Hb) as (n' & HM' & Hn'). exists delta, b. left. exists n, n'. splits; auto.
    { intros ->. apply Hne. eapply (move_inj _ _ _ _ IO); eauto. }
    destruct m as [X|r], n as [X'|q]; try contradiction; destruct m' as [Y|r'], n' as [Y'|q']; try contradiction; auto; unfold open_choice in *.
    + rewrite (io_says _ _ _ _ IO _ _ _ _ Hb HM), (io_says _ _ _ _ IO _ _ _ _ Hb HM'). exact HO.
    + rewrite (io_says _ _ _ _ IO _ _ _ _ Hb HM), (io_says _ _ _ _ IO _ _ _ _ Hb HM'). exact HO.
    + rewrite (io_says _ _ _ _ IO _ _ _ _ Hb HM), (io_says _ _ _ _ IO _ _ _ _ Hb HM'). destruct HO as [HO|[HO|(i & S1 & S2 & HN)]]; auto. right. right. exists i. splits; auto. intros HX. apply HN.
      cbn in HM, HM'. eapply io_outranked; eauto; cbn in S1, S2; congruence.
  - destruct (io_offers _ _ _ _ IO _ _ _ H1) as (delta & b & n & HG & Hb & HM & Hn). exists delta, b. right. destruct n as [Y|]; [|contradiction]. cbn in HM. destruct (io_kind _ _ _ _ IO _ _ HM) as (k1 & k2 & K1 & K2 & KA).
    assert (k1 = KMulti ms) as -> by congruence. destruct k2 as [| |ms']; try contradiction. exists Y, ms'. splits; auto. cbn in KA. clear - H3 KA Hb IO.
    enough (count_occ Nat.eq_dec ms a = count_occ Nat.eq_dec ms' b) by lia. clear H3. induction KA as [|x y ms ms' H F IH]; cbn; auto.
    destruct (Nat.eq_dec x a) as [->|N1], (Nat.eq_dec y b) as [->|N2]; auto; exfalso; [apply N2|apply N1]; [eapply (io_fun _ _ _ _ IO); eauto|eapply (io_inj _ _ _ _ IO); eauto].
Qed.
End Order.

Section Same.
Context (g1 g2 : grammar) (S R : nat -> nat -> Prop) (IO : iso g1 g2 S R) (OR : ordered g1 R).
Let OI := iso_flip _ _ _ _ IO.
Theorem io_conflicting : conflicting g1 -> conflicting g2.
Proof. intros (gamma & a & H). apply (io_conflict _ _ _ _ IO OR) in H. exact H. Qed.
Theorem io_lost r : lost g1 r -> exists q, lost g2 q.
Proof.
  intros [L H]. destruct (io_to _ _ _ _ IO r L) as [q HR]. exists q. split.
  - destruct (io_rule _ _ _ _ IO _ _ HR) as (ru & qu & H1 & H2 & M). apply nth_error_Some. congruence.
  - intros delta b HO. destruct (offers_back _ _ _ _ IO _ _ _ HO) as (gamma & a & m & HG & Ha & HM & HO'). destruct m as [|r']; [contradiction|]. cbn in HM. rewrite (io_rinj _ _ _ _ IO _ _ _ HM HR) in HO'.
    destruct (H _ _ HO') as (n & Hn & Hne & HP). destruct (io_offers_at _ _ _ _ IO _ _ _ _ _ Hn HG Ha) as (n' & HN & HO2). exists n'. splits; auto.
    + intros ->. apply Hne. eapply (move_inj _ _ _ _ IO); eauto.
    + intros HQ. apply HP. eapply (io_prefers _ _ _ _ OI (ordered_flip _ _ _ _ IO OR) delta b gamma a q r n' n); eauto; [now apply forall2_flip|now apply move_flip in HN].
Qed.
End Same.
