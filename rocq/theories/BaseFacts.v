(** Facts about the vocabulary of Base.v. *)
From Coq Require Export Permutation Sorted.
From Verif Require Import Base Syntax.

(** ** results *)
Lemma gbind_ok {A B} (x : gres A) (f : A -> gres B) b :
  gbind x f = GOk b -> exists a, x = GOk a /\ f a = GOk b.
Proof. destruct x; simpl; intros H; try discriminate; eauto. Qed.

Lemma gfold_app {A S} (f : S -> A -> gres S) l1 l2 s :
  gfold f (l1 ++ l2) s = (s' <-! gfold f l1 s ; gfold f l2 s').
Proof.
  revert s; induction l1 as [|a l1 IH]; intros s; simpl; [reflexivity|].
  destruct (f s a); simpl; auto.
Qed.

(** Invariant rule for [gfold]. *)
Lemma gfold_inv {A S} (f : S -> A -> gres S) (P : S -> Prop) l s s' :
  (forall s a s', In a l -> P s -> f s a = GOk s' -> P s') ->
  P s -> gfold f l s = GOk s' -> P s'.
Proof.
  revert s; induction l as [|a l IH]; simpl; intros s Hf Hs H.
  - congruence.
  - apply gbind_ok in H as (s1 & H1 & H2).
    eapply IH; [| |exact H2]; eauto.
Qed.

Ltac gok H :=
  match type of H with
  | gbind _ _ = GOk _ =>
      let a := fresh "a" in let Ha := fresh "Ha" in
      apply gbind_ok in H; destruct H as (a & Ha & H)
  end.

Lemma gmap_length {A B} (f : A -> gres B) l acc r :
  gfold (fun acc a => b <-! f a ; GOk (acc ++ [b])) l acc = GOk r ->
  List.length r = List.length acc + List.length l.
Proof.
  revert acc; induction l as [|a l IH]; simpl; intros acc H.
  - inversion H; lia.
  - gok H. gok Ha. inversion Ha; subst. apply IH in H. rewrite app_length in H; simpl in H; lia.
Qed.

Lemma gmap_spec {A B} (f : A -> gres B) l acc r :
  gfold (fun acc a => b <-! f a ; GOk (acc ++ [b])) l acc = GOk r ->
  exists r', r = acc ++ r' /\ Forall2 (fun a b => f a = GOk b) l r'.
Proof.
  revert acc; induction l as [|a l IH]; simpl; intros acc H.
  - inversion H; subst. exists []. rewrite app_nil_r. auto.
  - gok H. gok Ha. inversion Ha; subst. apply IH in H as (r' & -> & H).
    exists (a1 :: r'). rewrite <- app_assoc. auto.
Qed.

(** ** upd *)
Lemma upd_length {A} (l : list A) i f : List.length (upd l i f) = List.length l.
Proof. revert i; induction l as [|a l IH]; intros [|i]; simpl; auto. Qed.

Lemma nth_error_upd_same {A} (l : list A) i f :
  nth_error (upd l i f) i = option_map f (nth_error l i).
Proof. revert i; induction l as [|a l IH]; intros [|i]; simpl; auto. Qed.

Lemma nth_error_upd_other {A} (l : list A) i j f :
  i <> j -> nth_error (upd l i f) j = nth_error l j.
Proof.
  revert i j; induction l as [|a l IH]; intros [|i] [|j] H; simpl; auto; try lia.
Qed.

Lemma nth_error_upd {A} (l : list A) i j f :
  nth_error (upd l i f) j = if i =? j then option_map f (nth_error l j) else nth_error l j.
Proof.
  destruct (Nat.eqb_spec i j) as [->|H].
  - apply nth_error_upd_same.
  - apply nth_error_upd_other; auto.
Qed.

Lemma nth_upd {A} (l : list A) i j f d :
  nth j (upd l i f) d = if (i =? j) && (j <? List.length l) then f (nth j l d) else nth j l d.
Proof.
  revert i j; induction l as [|a l IH]; intros i j.
  - rewrite (proj2 (Nat.ltb_ge _ _)) by (simpl; lia). rewrite andb_false_r.
    destruct i, j; reflexivity.
  - destruct i as [|i], j as [|j]; try reflexivity. simpl upd. simpl nth. rewrite IH. reflexivity.
Qed.

Lemma nth_upd_same {A} (l : list A) i f d :
  i < List.length l -> nth i (upd l i f) d = f (nth i l d).
Proof. intros H. rewrite nth_upd, Nat.eqb_refl. apply Nat.ltb_lt in H. now rewrite H. Qed.

Lemma nth_upd_other {A} (l : list A) i j f d :
  i <> j -> nth j (upd l i f) d = nth j l d.
Proof. intros H. rewrite nth_upd. apply Nat.eqb_neq in H. now rewrite H. Qed.

Lemma upd_app_r {A} (l1 l2 : list A) i f :
  List.length l1 <= i -> upd (l1 ++ l2) i f = l1 ++ upd l2 (i - List.length l1) f.
Proof.
  revert i; induction l1 as [|a l1 IH]; intros i H; simpl in *.
  - f_equal. lia.
  - destruct i; [lia|]. simpl. f_equal. apply IH. lia.
Qed.

Lemma upd_app_l {A} (l1 l2 : list A) i f :
  i < List.length l1 -> upd (l1 ++ l2) i f = upd l1 i f ++ l2.
Proof.
  revert i; induction l1 as [|a l1 IH]; intros i H; simpl in *; [lia|].
  destruct i; simpl; auto. f_equal. apply IH. lia.
Qed.

Lemma upd_out {A} (l : list A) i f : List.length l <= i -> upd l i f = l.
Proof.
  revert i; induction l as [|a l IH]; intros [|i] H; simpl in *; auto; try lia.
  f_equal. apply IH. lia.
Qed.

Lemma upd_id {A} (l : list A) i f d :
  (i < List.length l -> f (nth i l d) = nth i l d) -> upd l i f = l.
Proof.
  revert i; induction l as [|a l IH]; intros [|i] H; simpl in *; auto.
  - f_equal. apply H. lia.
  - f_equal. apply IH. intros. apply H. lia.
Qed.

(** ** stable sort *)
Lemma sinsert_perm {A} less (x : A) l : Permutation (sinsert less x l) (x :: l).
Proof.
  induction l as [|y l IH]; simpl; auto.
  destruct (less y x); auto.
  rewrite IH. apply perm_swap.
Qed.

Lemma ssort_perm {A} less (l : list A) : Permutation (ssort less l) l.
Proof.
  induction l as [|x l IH]; simpl; auto.
  rewrite sinsert_perm. auto.
Qed.

Lemma ssort_in {A} less (l : list A) x : In x (ssort less l) <-> In x l.
Proof.
  split; intros H.
  - exact (Permutation_in _ (ssort_perm less l) H).
  - exact (Permutation_in _ (Permutation_sym (ssort_perm less l)) H).
Qed.

Lemma ssort_length {A} less (l : list A) : List.length (ssort less l) = List.length l.
Proof. apply Permutation_length, ssort_perm. Qed.

Lemma ssort_nodup {A} less (l : list A) : NoDup l -> NoDup (ssort less l).
Proof. intros H. eapply Permutation_NoDup; [|exact H]. apply Permutation_sym, ssort_perm. Qed.

(** Sorted as far as [less] goes: no later element is less than an earlier one.
    For this it suffices that [less] is asymmetric and its negation transitive. *)
Definition sorted_by {A} (less : A -> A -> bool) (l : list A) : Prop :=
  StronglySorted (fun x y => less y x = false) l.

Lemma sinsert_sorted {A} (less : A -> A -> bool) x l :
  (forall a b, less a b = true -> less b a = false) ->
  (forall a b c, less b a = false -> less c b = false -> less c a = false) ->
  sorted_by less l -> sorted_by less (sinsert less x l).
Proof.
  intros Hasym Htr H. unfold sorted_by in *.
  induction H as [|y l Hs IH Hf]; simpl.
  - repeat constructor.
  - destruct (less y x) eqn:E.
    + constructor; auto.
      rewrite Forall_forall in *. intros z Hz.
      apply (Permutation_in _ (sinsert_perm less x l)) in Hz.
      destruct Hz as [<-|Hz]; auto.
    + constructor; [constructor; auto|].
      constructor; auto.
      rewrite Forall_forall in *. intros z Hz. eapply Htr; [exact E|]. auto.
Qed.

Lemma ssort_sorted {A} (less : A -> A -> bool) l :
  (forall a b, less a b = true -> less b a = false) ->
  (forall a b c, less b a = false -> less c b = false -> less c a = false) ->
  sorted_by less (ssort less l).
Proof.
  intros H1 H2. induction l as [|x l IH]; simpl.
  - constructor.
  - apply sinsert_sorted; auto.
Qed.

(** ** position *)
Lemma position_some {A} (f : A -> bool) l i :
  position f l = Some i ->
  exists a, nth_error l i = Some a /\ f a = true /\
            forall j b, j < i -> nth_error l j = Some b -> f b = false.
Proof.
  revert i; induction l as [|a l IH]; simpl; intros i H; [discriminate|].
  destruct (f a) eqn:E.
  - inversion H; subst. exists a. repeat split; auto. intros; lia.
  - destruct (position f l) as [k|] eqn:Ek; simpl in H; [|discriminate].
    inversion H; subst. destruct (IH _ eq_refl) as (b & Hb & Hf & Hmin).
    exists b. repeat split; auto. intros [|j] c Hj Hc; simpl in Hc.
    + congruence.
    + eapply Hmin; [|exact Hc]. lia.
Qed.

Lemma position_none {A} (f : A -> bool) l :
  position f l = None -> forall a, In a l -> f a = false.
Proof.
  induction l as [|a l IH]; simpl; intros H b Hb; [easy|].
  destruct (f a) eqn:E; [discriminate|].
  destruct (position f l) eqn:Ek; simpl in H; [discriminate|].
  destruct Hb as [<-|Hb]; auto.
Qed.

Lemma position_nth_nodup (l : list nat) i x :
  NoDup l -> nth_error l i = Some x -> position (Nat.eqb x) l = Some i.
Proof.
  revert i; induction l as [|a l IH]; intros i Hn H; destruct i; simpl in *; try discriminate.
  - inversion H; subst. now rewrite Nat.eqb_refl.
  - inversion Hn; subst. destruct (Nat.eqb_spec x a) as [->|Hne].
    + exfalso. apply H2. eapply nth_error_In; eauto.
    + rewrite (IH i); auto.
Qed.

Lemma rposition_none {A} (f : A -> bool) l :
  rposition f l = None -> forall a, In a l -> f a = false.
Proof.
  induction l as [|a l IH]; simpl; intros H b Hb; [easy|].
  destruct (rposition f l) eqn:Ek; [discriminate|].
  destruct (f a) eqn:E; [discriminate|].
  destruct Hb as [<-|Hb]; auto.
Qed.

Lemma rposition_some {A} (f : A -> bool) l i :
  rposition f l = Some i ->
  exists a, nth_error l i = Some a /\ f a = true /\
            forall j b, i < j -> nth_error l j = Some b -> f b = false.
Proof.
  revert i; induction l as [|a l IH]; simpl; intros i H; [discriminate|].
  destruct (rposition f l) as [k|] eqn:Ek.
  - inversion H; subst. destruct (IH _ eq_refl) as (b & Hb & Hf & Hmax).
    exists b. repeat split; auto. intros [|j] c Hj Hc; [lia|]. simpl in Hc.
    eapply Hmax; [|exact Hc]. lia.
  - destruct (f a) eqn:E; [|discriminate]. inversion H; subst.
    exists a. repeat split; auto. intros [|j] c Hj Hc; [lia|]. simpl in Hc.
    eapply rposition_none; eauto. eapply nth_error_In; eauto.
Qed.

(** ** sets *)
Lemma smem_true x s : smem x s = true <-> In x s.
Proof.
  unfold smem. rewrite existsb_exists. split.
  - intros (y & Hy & E). apply Nat.eqb_eq in E. now subst.
  - intros H. exists x. split; auto. apply Nat.eqb_refl.
Qed.
Lemma smem_false x s : smem x s = false <-> ~ In x s.
Proof. rewrite <- smem_true. destruct (smem x s); split; congruence. Qed.

Lemma sadd_in x y s : In y (sadd x s) <-> y = x \/ In y s.
Proof.
  unfold sadd. destruct (smem x s) eqn:E.
  - apply smem_true in E. split; auto. intros [->|H]; auto.
  - rewrite in_app_iff. simpl. intuition.
Qed.
Lemma sunion_in y s t : In y (sunion s t) <-> In y s \/ In y t.
Proof.
  unfold sunion. revert s; induction t as [|x t IH]; intros s; simpl.
  - tauto.
  - rewrite IH, sadd_in. intuition.
Qed.
Lemma sadd_length x s : List.length s <= List.length (sadd x s).
Proof. unfold sadd. destruct (smem x s); auto. rewrite app_length; simpl; lia. Qed.
Lemma sunion_length s t : List.length s <= List.length (sunion s t).
Proof.
  unfold sunion. revert s; induction t as [|x t IH]; intros s; simpl; auto.
  etransitivity; [apply sadd_length|apply IH].
Qed.
Lemma sadd_nodup x s : NoDup s -> NoDup (sadd x s).
Proof.
  unfold sadd. destruct (smem x s) eqn:E; auto. intros H.
  apply smem_false in E. apply NoDup_rev in H.
  replace (s ++ [x]) with (rev (x :: rev s)) by (simpl; now rewrite rev_involutive).
  apply NoDup_rev. constructor; auto. now rewrite <- in_rev.
Qed.
Lemma sunion_nodup s t : NoDup s -> NoDup (sunion s t).
Proof.
  unfold sunion. revert s; induction t as [|x t IH]; intros s H; simpl; auto.
  apply IH, sadd_nodup, H.
Qed.
Lemma sadd_same x s : List.length s = List.length (sadd x s) -> In x s.
Proof.
  unfold sadd. destruct (smem x s) eqn:E; intros H.
  - now apply smem_true.
  - rewrite app_length in H; simpl in H; lia.
Qed.
Lemma sunion_same s t : List.length s = List.length (sunion s t) -> forall x, In x t -> In x s.
Proof.
  unfold sunion. revert s; induction t as [|y t IH]; intros s H x Hx; simpl in *; [easy|].
  pose proof (sadd_length y s) as H1.
  pose proof (sunion_length (sadd y s) t) as H2. unfold sunion in H2.
  assert (Hy : In y s) by (apply sadd_same; lia).
  destruct Hx as [<-|Hx]; auto.
  assert (Hx' : In x (sadd y s)) by (apply IH; auto; lia).
  apply sadd_in in Hx' as [->|]; auto.
Qed.
Lemma sunion_same_eq s t : List.length s = List.length (sunion s t) -> sunion s t = s.
Proof.
  unfold sunion. revert s; induction t as [|y t IH]; intros s H; simpl in *; auto.
  pose proof (sadd_length y s) as H1.
  pose proof (sunion_length (sadd y s) t) as H2. unfold sunion in H2.
  assert (Hy : In y s) by (apply sadd_same; lia).
  assert (E : sadd y s = s) by (unfold sadd; apply smem_true in Hy; now rewrite Hy).
  rewrite E in *. apply IH. auto.
Qed.

(** ** miscellaneous *)
Lemma nth_error_nth_iff {A} (l : list A) i a d :
  nth_error l i = Some a <-> i < List.length l /\ nth i l d = a.
Proof.
  split.
  - intros H. split; [apply nth_error_Some; congruence|]. now apply nth_error_nth.
  - intros [H <-]. now apply nth_error_nth'.
Qed.

Lemma nth_error_seq0 n i x : nth_error (seq 0 n) i = Some x <-> i < n /\ x = i.
Proof.
  split.
  - intros H. assert (i < n).
    { rewrite <- (seq_length n 0). apply nth_error_Some. congruence. }
    split; auto. rewrite (nth_error_nth' _ 0) in H by now rewrite seq_length.
    rewrite seq_nth in H by auto. inversion H; auto.
  - intros [H ->]. rewrite (nth_error_nth' _ 0) by now rewrite seq_length.
    now rewrite seq_nth.
Qed.

Lemma find_app {A} (f : A -> bool) l1 l2 :
  find f (l1 ++ l2) = match find f l1 with Some a => Some a | None => find f l2 end.
Proof. induction l1 as [|a l1 IH]; simpl; auto. destruct (f a); auto. Qed.

Lemma string_eqb_true a b : String.eqb a b = true <-> a = b.
Proof. apply String.eqb_eq. Qed.

Lemma ty_eqb_refl : forall t, Syntax.ty_eqb t t = true.
Proof. induction t; simpl; auto using String.eqb_refl. now rewrite IHt1, IHt2. Qed.

Ltac splits := repeat match goal with |- _ /\ _ => split end.

Lemma nodup_app_iff {A} (a b : list A) :
  NoDup (a ++ b) <-> NoDup a /\ NoDup b /\ (forall x, In x a -> In x b -> False).
Proof.
  induction a as [|x a IH]; simpl.
  - split; [intros H; splits; auto; constructor|intros (_ & H & _); auto].
  - split.
    + intros H. inversion H as [|? ? Hn Hd]; subst. apply IH in Hd as (H1 & H2 & H3). splits; auto.
      * constructor; auto. intros Hi. apply Hn, in_or_app. now left.
      * intros y [<-|Hy] Hb; eauto. apply Hn, in_or_app. now right.
    + intros (H1 & H2 & H3). inversion H1 as [|? ? Hn Hd]; subst. constructor.
      * intros Hi. apply in_app_or in Hi as [Hi|Hi]; eauto.
      * apply IH. splits; eauto.
Qed.

Lemma nodup_flat_map_inj {A B} (f : A -> list B) l s t a b c :
  NoDup (flat_map f l) -> nth_error l s = Some a -> nth_error l t = Some b ->
  In c (f a) -> In c (f b) -> s = t.
Proof.
  revert s t. induction l as [|x l IH]; intros s t Hn Hs Ht Ha Hb; [destruct s; discriminate|].
  simpl in Hn. apply nodup_app_iff in Hn as (H1 & H2 & H3).
  destruct s, t; simpl in *; auto.
  - inversion Hs; subst. exfalso. apply (H3 c); auto. apply in_flat_map. exists b. split; auto.
    eapply nth_error_In; eauto.
  - inversion Ht; subst. exfalso. apply (H3 c); auto. apply in_flat_map. exists a. split; auto.
    eapply nth_error_In; eauto.
Qed.
