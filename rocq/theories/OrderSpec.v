(** Declarations in another order (C46). *)
From Coq Require Import Permutation.
From Verif Require Import Base Syntax DeclSpec.

Definition is_prec_line (d : decl) : bool := match d with DAssoc _ _ => true | _ => false end.
(** src/lib.rs 256-258 and 435-438: the same declarations in another order, the precedence lines
    in the same order among themselves and the same start symbol. *)
Record rearranged (ds1 ds2 : list decl) : Prop := {
  ra_perm : Permutation ds1 ds2;
  ra_prec : filter is_prec_line ds1 = filter is_prec_line ds2;
  ra_start : start_of ds1 = start_of ds2 }.

(** Two lines that speak about the same thing although they may be repeated: %stack_size, %type
    for one name, %token_class for one name *)
Definition rivals (d e : decl) : Prop :=
  match d, e with
  | DStackSize _ _, DStackSize _ _ => True
  | DType _ n _, DType _ m _ => n = m
  | DTokenClass n _, DTokenClass m _ => n = m
  | _, _ => False
  end.
Definition no_rivals (ds : list decl) : Prop := ForallOrdPairs (fun d e => ~ rivals d e) ds.

(** Two lists of declarations say the same. *)
Record same_words (ds1 ds2 : list decl) : Prop := {
  sw_rules : Permutation (rules_in ds1) (rules_in ds2);
  sw_assoc : forall n, assoc_of ds1 n = assoc_of ds2 n;
  sw_type : forall n, type_of ds1 n = type_of ds2 n;
  sw_fb : forall n, fallback_of ds1 n = fallback_of ds2 n;
  sw_class : forall n, class_of ds1 n = class_of ds2 n;
  sw_wild : wildcard_of ds1 = wildcard_of ds2;
  sw_start : start_of ds1 = start_of ds2;
  sw_dflt : default_type_of ds1 = default_type_of ds2;
  sw_extra : extra_token_of ds1 = extra_token_of ds2 }.
