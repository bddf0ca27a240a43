(** The generated Token enum and its accessors for %extra_token: mod.rs 2345-2425. *)
From Verif Require Import Base Syntax FrontEnd Actions Tables.

(** The arms of into_extra(), extra() and extra_mut(), mod.rs 2358-2364:
    [Token::Name(e) => e] and [Token::Name((e, _)) => e] *)
Inductive arm := AWhole | AFirst.

(** A variant: its name, the type of its field and its arm, mod.rs 2347-2382.  The arms are
    only made if there is a field and %extra_token is given.  Attributes are left out. *)
Record variant := mkVariant { va_name : ident; va_field : option ty; va_arm : option arm }.

(** mod.rs 2347-2382, for the symbols after the loop of lines 2136-2168 *)
Definition variant_of (g : grammar) (s : symbol) : variant :=
  mkVariant (sy_name s) (sy_type s)
    match sy_type s, f_extra_token (g_fe g) with
    | Some dt, Some et => Some (if ty_eqb dt et then AWhole else AFirst)
    | _, _ => None
    end.
Definition token_enum (g : grammar) : gres (list variant) :=
  '(_, syms, _) <-! type_symbols g ;
  GOk (map (fun i => variant_of g (nth i syms dummy_sym)) (seq 1 (g_nterm g - 1))).

(** ** What the accessors do
    The values of a type, given those of the types that are not pairs, options or [()]. *)
Section Values.
Context (named : string -> Type).
Fixpoint values (t : ty) : Type :=
  match t with
  | TyName s => named s
  | TyUnit => unit
  | TyPair a b => (values a * values b)%type
  | TyOption a => option (values a)
  end.

Definition ty_dec (a b : ty) : {a = b} + {a <> b}.
Proof. decide equality. apply string_dec. Defined.

(** The part of a field that an arm gives access to: how it is read, through into_extra() and
    extra(), and how it is replaced, through extra_mut().  [None]: rustc rejects the arm. *)
Definition access (et : ty) (a : arm) (field : ty) : option ((values field -> values et) * (values field -> values et -> values field)) :=
  match a with
  | AWhole =>
      match ty_dec field et with
      | left H => Some (eq_rect field (fun t => (values field -> values t) * (values field -> values t -> values field))%type (fun w => w, fun _ e => e) et H)
      | right _ => None
      end
  | AFirst =>
      match field with
      | TyPair a1 a2 =>
          match ty_dec a1 et with
          | left H => Some (eq_rect a1 (fun t => (values (TyPair a1 a2) -> values t) * (values (TyPair a1 a2) -> values t -> values (TyPair a1 a2)))%type (fst, fun w e => (e, snd w)) et H)
          | right _ => None
          end
      | _ => None
      end
  end.
End Values.
