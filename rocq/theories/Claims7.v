(** Expansion always comes to an answer. *)
From Verif Require Import Base Syntax FrontEnd Tables FrontFacts BuildFacts ExpandFacts FaultSpec PanicFacts.

(** Given enough steps the macro returns, always the same thing, and this is either the
    generated parser or an error message. *)
Theorem expansion_answers ds ord : no_self_fallback ds -> elems_named ds -> classes_begin ds -> shifts_leave ds -> hash_order ord ->
  exists n r, (forall n', n <= n' -> build n' ord ds = r) /\ ((exists b, r = GOk b) \/ (exists e, r = GErr e)).
Proof.
  intros H1 H2 H3 H4 Ho. destruct (expansion_ends ds ord H1 Ho) as (n & r & Hr & H). exists n, r. split; auto.
  destruct r as [b|e| |]; eauto; [|congruence]. exfalso. apply (no_macro_panic n ord ds Ho H2 H3 H4). apply H. lia.
Qed.
