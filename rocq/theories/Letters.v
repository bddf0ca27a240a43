(** What a name begins with decides what it names: the letters that [is_terminal_ident] and
    [is_nonterminal_ident] (mod.rs 512-518) ask for, listed one by one. *)
From Coq Require Import List String Ascii Arith Bool.
Import ListNotations.
From Verif Require Import Base Syntax.
Open Scope string_scope.

Definition capitals : list ascii := list_ascii_of_string "ABCDEFGHIJKLMNOPQRSTUVWXYZ".
Definition smalls : list ascii := list_ascii_of_string "abcdefghijklmnopqrstuvwxyz".
Definition begins_with (l : list ascii) (n : string) : Prop := match n with String c _ => In c l | EmptyString => False end.

Theorem initials n : (is_terminal_ident n = true <-> begins_with capitals n) /\ (is_nonterminal_ident n = true <-> begins_with smalls n).
Proof.
  destruct n as [|c n]; [split; split; intros H; (discriminate || contradiction)|].
  assert (H : forall x l, existsb (Ascii.eqb x) l = true <-> In x l).
  { intros x l. rewrite existsb_exists. split; [intros (y & Hy & E); apply Ascii.eqb_eq in E; now subst|intros Hx; exists x; split; [easy|apply Ascii.eqb_refl]]. }
  cbn [begins_with]. rewrite <- !H.
  assert (A : first_in 65 90 (String c n) = existsb (Ascii.eqb c) capitals /\ first_in 97 122 (String c n) = existsb (Ascii.eqb c) smalls).
  { destruct c as [[] [] [] [] [] [] [] []]; split; vm_compute; reflexivity. }
  unfold is_terminal_ident, is_nonterminal_ident. destruct A as [-> ->]. split; reflexivity.
Qed.
