(** The test suite of the repository, run in the model: each grammar of /repo/tests/pass and
    /repo/tests/compile-fail (those that test this macro, not rustc), the README and
    examples/json.rs, with the results the tests assert. *)
From Verif Require Import Base Syntax FrontEnd First States Actions Tables Runtime User Demo.
Open Scope string_scope. Open Scope nat_scope. Open Scope list_scope.

(** Values of the test programs *)
Inductive tval := TUnit | TNone | TSome (v : tval) | TInt (n : nat) | TStr (s : string) | TSeq (l : list tval)
| TPair (a b : tval) | TUn (c : string) (a : tval) | TBin (c : string) (a b : tval).
Notation txtra := (list tval).
Notation tsem := (sem tval txtra string).

Definition sy (n : ident) : rhs_elem := ([n], false, None).
Definition al (n : ident) : rhs_elem := ([n], false, Some "x").
Definition op (n : ident) : rhs_elem := ([n], true, None).
Definition oa (n : ident) : rhs_elem := ([n], true, Some "x").
Definition rc (l : ident) (r : list rhs_elem) (c : code) : decl := DRule l r (Some c) None.
Definition rn (l : ident) (r : list rhs_elem) : decl := DRule l r None None.
Definition T (s : string) : option ty := Some (TyName s).
Definition push (x : txtra) (v : tval) : txtra := x ++ [v].

(** Tokens by name *)
Fixpoint index_str (n : string) (l : list string) : nat := match l with [] => 0 | m :: l' => if String.eqb n m then 0 else S (index_str n l') end.
Definition tk (t : tables) (q : string * option tval) : token tval := (index_str (fst q) (t_names t), snd q).
Inductive outc := Done (v : tval) (x : txtra) | Going (x : txtra) | Failed_ (e : string) (x : txtra) | Bad (s : string).
(** parse() for each token; then end_of_input() if [fin] *)
Definition drive (sm : tsem) (ds : list decl) (x : txtra) (fin : bool) (toks : list (string * option tval)) : outc :=
  match build 300 ida ds with
  | GOk b =>
      let t := bt_tables b in let h := user_hooks t sm in
      if (fin : bool) then
        match api_run 300 t sm x (map (tk t) toks) with ROk (v, x') _ => Done v x' | RErr e p => Failed_ e (ps_extra p) | RPanic => Bad "panic" | RFuel => Bad "fuel" end
      else
        match parse_all 300 t h (new_parser h x) (map (token_value t sm) (map (tk t) toks)) with ROk _ p => Going (ps_extra p) | RErr e p => Failed_ e (ps_extra p) | RPanic => Bad "panic" | RFuel => Bad "fuel" end
  | GErr _ => Bad "macro error" | GPanic => Bad "macro panic" | GFuel => Bad "macro fuel"
  end.
(** The default handlers: the error type is (), mod.rs 2202-2221 *)
Definition std (blk : code -> list tval -> txtra -> txtra * (tval + string)) : tsem :=
  mkSem TUnit TNone TSome blk (fun _ _ x => (x, inr "syntax")) (fun x => (x, "fail")) (fun _ x => (x, "overflow")).
Definition with_syntax (s : tsem) f : tsem := mkSem (v_unit s) (v_none s) (v_some s) (u_block s) f (u_fail s) (u_overflow s).
Definition with_overflow (s : tsem) f : tsem := mkSem (v_unit s) (v_none s) (v_some s) (u_block s) (u_syntax s) (u_fail s) f.
Definition ok (x : txtra) (v : tval) : txtra * (tval + string) := (x, inl v).
Definition u (n : string) : string * option tval := (n, None).
Definition d (n : string) (v : tval) : string * option tval := (n, Some v).

(** ** README *)
Definition readme : list decl :=
  [DType 0 "input" (T "Vec<i32>"); DType 0 "numbers" (T "Vec<i32>"); DType 0 "Number" (T "i32");
   rc "input" [oa "numbers"] 1; rc "numbers" [al "Number"] 2; rc "numbers" [al "numbers"; sy "Comma"; al "Number"] 3].
Definition readme_sem : tsem := std (fun c l x => ok x match c, l with
  | 1, [TSome v] => v | 1, [TNone] => TSeq [] | 2, [n] => TSeq [n] | 3, [TSeq l; n] => TSeq (l ++ [n]) | _, _ => TUnit end).
Example readme_test : drive readme_sem readme [] true [d "Number" (TInt 1); u "Comma"; d "Number" (TInt 2); u "Comma"; d "Number" (TInt 3)]
  = Done (TSeq [TInt 1; TInt 2; TInt 3]) [].
Proof. vm_compute. reflexivity. Qed.

(** ** pass/tree.rs *)
Definition tree : list decl :=
  [DType 0 "input" (T "TestTree"); DType 0 "tree" (T "TestTree"); DType 0 "Integer" (T "i32");
   DAssoc ALeft ["Plus"; "Minus"]; DAssoc ALeft ["Mult"]; DAssoc ANone ["Unary"]; DAssoc ARight ["Pow"];
   rc "input" [al "tree"] 1; rc "tree" [al "Integer"] 2; rc "tree" [sy "LParen"; al "tree"; sy "RParen"] 3;
   rc "tree" [al "tree"; sy "Plus"; al "tree"] 4; rc "tree" [al "tree"; sy "Minus"; al "tree"] 5;
   rc "tree" [al "tree"; sy "Mult"; al "tree"] 6; rc "tree" [al "tree"; sy "Pow"; al "tree"] 7;
   DRule "tree" [sy "Minus"; al "tree"] (Some 8) (Some "Unary"); DRule "tree" [sy "Plus"; al "tree"] (Some 9) (Some "Unary")].
Definition tree_sem : tsem := std (fun c l x => ok x match c, l with
  | 1, [v] => v | 2, [v] => v | 3, [v] => v | 4, [a; b] => TBin "+" a b | 5, [a; b] => TBin "-" a b
  | 6, [a; b] => TBin "*" a b | 7, [a; b] => TBin "^" a b | 8, [a] => TUn "<" a | 9, [a] => TUn ">" a | _, _ => TUnit end).
Definition I (n : nat) := d "Integer" (TInt n).
Definition P := u "Plus". Definition Mi := u "Minus". Definition Mu := u "Mult". Definition Pw := u "Pow". Definition Lp := u "LParen". Definition Rp := u "RParen".
Notation n_ := TInt.
Definition tree_run toks := drive tree_sem tree [] true toks.
Example tree_basic : tree_run [I 1; P; I 2; Mi; I 3; P; I 4] = Done (TBin "+" (TBin "-" (TBin "+" (n_ 1) (n_ 2)) (n_ 3)) (n_ 4)) [].
Proof. vm_compute. reflexivity. Qed.
Example tree_with_paren : tree_run [I 1; P; Lp; I 2; Mi; I 3; Rp; P; I 4] = Done (TBin "+" (TBin "+" (n_ 1) (TBin "-" (n_ 2) (n_ 3))) (n_ 4)) [].
Proof. vm_compute. reflexivity. Qed.
Example tree_precedence :
  tree_run [I 1; Mu; Lp; I 2; P; I 3; Rp] = Done (TBin "*" (n_ 1) (TBin "+" (n_ 2) (n_ 3))) [] /\
  tree_run [I 1; Mu; I 2; P; I 3] = Done (TBin "+" (TBin "*" (n_ 1) (n_ 2)) (n_ 3)) [] /\
  tree_run [I 1; P; I 2; Mu; I 3] = Done (TBin "+" (n_ 1) (TBin "*" (n_ 2) (n_ 3))) [].
Proof. vm_compute. auto. Qed.
Example tree_right : tree_run [I 1; Pw; I 2; Pw; I 3] = Done (TBin "^" (n_ 1) (TBin "^" (n_ 2) (n_ 3))) [].
Proof. vm_compute. reflexivity. Qed.
Example tree_unary_prec :
  tree_run [Mi; I 1; Mu; I 2] = Done (TBin "*" (TUn "<" (n_ 1)) (n_ 2)) [] /\
  tree_run [I 2; P; Mi; I 1; Mu; Mi; P; I 2] = Done (TBin "+" (n_ 2) (TBin "*" (TUn "<" (n_ 1)) (TUn "<" (TUn ">" (n_ 2))))) [] /\
  tree_run [Mi; Lp; I 2; P; I 3; Rp] = Done (TUn "<" (TBin "+" (n_ 2) (n_ 3))) [].
Proof. vm_compute. auto. Qed.

(** ** pass/error1.rs and typed_error.rs *)
Definition lines_rules (e : rhs_elem) : list decl :=
  [rn "start" [sy "lines"]; rn "lines" [sy "line"]; rn "lines" [sy "lines"; sy "line0"];
   rc "line0" [e; sy "Eol"] 1; rn "line0" [sy "line"; sy "Eol"]; rc "line" [sy "One"; sy "Two"; sy "Three"] 2].
Definition ch (s : string) := TStr s.
Definition error1_sem : tsem := with_syntax (std (fun c l x => ok (push x (ch (match c with 1 => "0" | _ => "1" end))) TUnit)) (fun _ _ x => ok (push x (ch "X")) TUnit).
Definition good := [u "One"; u "Two"; u "Three"; u "Eol"].
Definition error1_toks := good ++ [u "Two"; u "Eol"] ++ good ++ repeat (u "One") 9 ++ [u "Eol"] ++ good.
Example error1_test : drive error1_sem (lines_rules (sy "error")) [] false error1_toks = Going (map ch ["1"; "X"; "0"; "1"; "X"; "0"; "1"]).
Proof. vm_compute. reflexivity. Qed.
Definition typed_error_sem : tsem := with_syntax (std (fun c l x => ok (push x (match c, l with 1, [e] => e | _, _ => ch "1" end)) TUnit)) (fun _ _ x => ok (push x (ch "X")) (ch "0")).
Example typed_error_test : drive typed_error_sem (DType 0 "error" (T "char") :: lines_rules (al "error")) [] false error1_toks = Going (map ch ["1"; "X"; "0"; "1"; "X"; "0"; "1"]).
Proof. vm_compute. reflexivity. Qed.

(** ** pass/error2.rs: no error rule *)
Definition error2 : list decl := [rn "start" [sy "lines"]; rn "lines" [sy "line"; sy "Eol"]; rn "lines" [sy "lines"; sy "line"; sy "Eol"]; rc "line" [sy "One"; sy "Two"; sy "Three"] 1].
(** The handler asserts that the token is [Two]; its name is pushed instead. *)
Definition error2_sem (b : built) : tsem := with_syntax (std (fun c l x => ok (push x (ch "1")) TUnit))
  (fun tok _ x => ok (push x (match tok with Some (i, None) => if String.eqb (nth i (t_names (bt_tables b)) "") "Two" then ch "0" else ch "?" | _ => ch "?" end)) TUnit).
Example error2_test : match build 300 ida error2 with
  | GOk b => drive (error2_sem b) error2 [] false (good ++ [u "Two"; u "Eol"] ++ good) = Going (map ch ["1"; "0"; "1"]) | _ => False end.
Proof. vm_compute. reflexivity. Qed.

(** ** pass/error3.rs: a failing block *)
Definition error3 : list decl := [DType 0 "Letter" (T "char"); rn "start" [sy "word"]; rc "word" [al "Letter"] 1; rc "word" [sy "word"; al "Letter"] 2].
Definition error3_sem : tsem := std (fun c l x => match l with [TStr "C"] => (x, inr "see") | [v] => ok (push x v) TUnit | _ => ok x TUnit end).
Example error3_test : drive error3_sem error3 [] false [d "Letter" (ch "A"); d "Letter" (ch "B"); d "Letter" (ch "C"); d "Letter" (ch "D")] = Failed_ "see" (map ch ["A"; "B"]).
Proof. vm_compute. reflexivity. Qed.

(** ** pass/expected_tokens.rs *)
Definition names_at (b : built) (l : list (nat * option (token tval))) : list tval :=
  map (fun q => match snd q with Some _ => TStr (nth (fst q) (t_names (bt_tables b)) "") | None => TUnit end) l.
Definition unit_blocks : tsem := std (fun c l x => ok x TUnit).
Definition exp1 := lines_rules (sy "error").
Example expected1_test : match build 300 ida exp1 with
  | GOk b => drive (with_syntax unit_blocks (fun _ e x => ok (x ++ firstn 1 (names_at b e)) TUnit)) exp1 [] false
      (good ++ [u "Two"; u "Eol"] ++ good ++ repeat (u "One") 9 ++ [u "Eol"; u "One"; u "Two"; u "Eol"]) = Going (map TStr ["One"; "Two"; "Three"])
  | _ => False end.
Proof. vm_compute. reflexivity. Qed.
Definition exp2 := [rn "start" [sy "lines"]; rn "lines" [sy "line"]; rn "lines" [sy "lines"; sy "line0"]; rn "line0" [sy "line"; sy "Eol"];
  rc "line" [sy "One"] 1; rc "line" [sy "Two"] 2; rc "line" [sy "Three"] 3].
Example expected2_test : match build 300 ida exp2 with
  | GOk b => drive (with_syntax unit_blocks (fun _ e x => ok (x ++ names_at b e) TUnit)) exp2 [] false
      [u "One"; u "Eol"; u "Eol"; u "Two"; u "Eol"; u "Eol"; u "Three"; u "Eol"] = Going (map TStr ["One"; "Two"; "Three"])
  | _ => False end.
Proof. vm_compute. reflexivity. Qed.

(** ** pass/fallback.rs, fallback2.rs *)
Definition fallback1 := [DFallback "Fallback" ["One"; "Two"; "Three"]; rn "input" [sy "tokens"]; rn "tokens" [sy "Fallback"; sy "Two"; sy "Fallback"]; rn "tokens" [sy "Three"; sy "Two"; sy "One"]].
Example fallback_test : drive unit_blocks fallback1 [] true [u "One"; u "Two"; u "Three"] = Done TUnit [].
Proof. vm_compute. reflexivity. Qed.
Definition fallback2 := [rn "s" [sy "e"]; rn "e" [sy "t"]; rc "e" [sy "e"; sy "PLUS"; sy "t"] 1; rn "t" [sy "f"]; rc "t" [sy "t"; sy "MUL"; sy "f"] 2; rn "f" [sy "ID"]; rn "f" [sy "LP"; sy "e"; sy "RP"]; DFallback "MUL" ["PLUS"]].
Example fallback2_test : drive (std (fun c l x => ok (push x (TInt c)) TUnit)) fallback2 [] true
  (map u ["ID"; "PLUS"; "LP"; "ID"; "PLUS"; "LP"; "ID"; "MUL"; "ID"; "RP"; "RP"]) = Done TUnit [TInt 2; TInt 1; TInt 1].
Proof. vm_compute. reflexivity. Qed.

(** ** pass/optional.rs *)
Definition optional := [DType 0 "input" (T "i32"); DType 0 "Two" (T "i32"); rc "input" [sy "One"; oa "Two"; sy "Three"; oa "Two"; sy "Four"; op "end"] 1; rn "end" [sy "End"]].
Definition unwrap_or (d : nat) (v : tval) : nat := match v with TSome (TInt n) => n | _ => d end.
Definition optional_sem : tsem := std (fun c l x => ok x match l with [a; b] => TInt (unwrap_or 1 a + unwrap_or 1 b) | _ => TUnit end).
Example without_optional : drive optional_sem optional [] true [u "One"; u "Three"; u "Four"] = Done (TInt 2) [].
Proof. vm_compute. reflexivity. Qed.
Example with_optional : drive optional_sem optional [] true [u "One"; d "Two" (TInt 42); u "Three"; d "Two" (TInt 24); u "Four"; u "End"] = Done (TInt 66) [].
Proof. vm_compute. reflexivity. Qed.

(** ** pass/stack.rs: overflow at the token One(31) *)
Definition stack := [DStackSize 32 None; DType 0 "One" (T "i32"); rn "input" [sy "list"]; rn "list" [sy "one"]; rn "list" [sy "one"; sy "list"]; rc "one" [sy "One"] 1].
Definition stack_sem : tsem := with_overflow (std (fun c l x => ok (push x TUnit) TUnit))
  (fun tok x => (match tok with Some (_, Some v) => [v; TInt (List.length x)] | _ => [] end, "stack overflow")).
Example stack_test : drive stack_sem stack [] false (map (fun i => d "One" (TInt i)) (seq 0 50)) = Failed_ "stack overflow" [TInt 31; TInt 31].
Proof. vm_compute. reflexivity. Qed.

(** ** pass/token_alt.rs, token_class.rs *)
Definition list_sem : tsem := std (fun c l x => ok x match c, l with 1, [v] => v | 2, [] => TSeq [] | 3, [TSeq l; n] => TSeq (l ++ [n]) | 4, [v] => v | _, _ => TUnit end).
Definition i32 := TyName "i32". Definition vec := TyName "Vec<i32>".
Definition token_alt := [DDefaultType i32; DType 0 "list" (Some vec); DType 0 "input" (Some vec); rc "input" [al "list"] 1; rc "list" [] 2;
  rc "list" [al "list"; (["One"; "Two"; "Three"], false, Some "A")] 3].
Definition one_two_three := [d "One" (TInt 1); d "Two" (TInt 2); d "Three" (TInt 3)].
Example token_alt_test : drive list_sem token_alt [] true one_two_three = Done (TSeq [TInt 1; TInt 2; TInt 3]) [].
Proof. vm_compute. reflexivity. Qed.
Definition token_class := [DTokenClass "Number" ["One"; "Two"; "Three"]; DTokenClass "Letter" ["Aaa"; "Bbb"; "Ccc"]; DDefaultType i32; DType 0 "Aaa" (T "i8");
  DType 0 "input" (Some vec); DType 0 "list" (Some vec); rc "input" [al "list"] 1; rc "list" [] 2; rc "list" [al "list"; al "Number"] 3; rc "list" [al "list"; sy "Letter"] 4].
Example token_class_test : drive list_sem token_class [] true one_two_three = Done (TSeq [TInt 1; TInt 2; TInt 3]) [].
Proof. vm_compute. reflexivity. Qed.

(** ** pass/wildcard.rs *)
Definition wildcard := [DWildcard "WC"; DType 0 "One" (T "u8"); rn "input" [sy "One"; sy "Two"; sy "WC"]; rn "input" [sy "One"; sy "Two"; sy "Three"]].
Example wildcard_test : drive unit_blocks wildcard [] true [d "One" (TInt 0); u "Two"; d "One" (TInt 0)] = Done TUnit [].
Proof. vm_compute. reflexivity. Qed.

(** ** pass/extra_token.rs *)
Definition usize := TyName "usize". Definition row := TyPair usize (TyName "String"). Definition rows_ := TyName "Vec<(usize, String)>".
Definition extra_token := [DExtraToken usize; DType 0 "One" (T "String"); DType 0 "Two" (T "i32"); DType 0 "Three" (Some (TyPair (TyName "char") (TyName "char")));
  DType 0 "line" (Some row); DType 0 "lines" (Some rows_); DType 0 "input" (Some rows_);
  rn "input" [sy "lines"]; rc "lines" [al "line"] 1; rc "lines" [al "lines"; al "Eol"; al "line"] 2; rc "line" [al "One"] 3; rc "line" [al "Two"; al "Two"] 4; rc "line" [al "Three"; al "Three"; al "Three"] 5].
Definition same (l : list tval) : bool := match l with TPair (TInt n) _ :: l' => forallb (fun v => match v with TPair (TInt m) _ => n =? m | _ => false end) l' | _ => false end.
Definition extra_sem : tsem := std (fun c l x =>
  match c, l with
  | 1, [v] => ok x (TSeq [v]) | 2, [TSeq l; n; v] => ok x (TSeq (l ++ [TPair n (TStr "/"); v])) | 3, [v] => ok x v
  | _, TPair n _ :: _ => if same l then ok x (TPair n (TSeq (map (fun v => match v with TPair _ w => w | w => w end) l))) else (x, inr "rows")
  | _, _ => ok x TUnit end).
Definition tp (n : nat) (s : string) := TPair (TInt n) (TStr s).
Example extra_token_test : drive extra_sem extra_token [] true
  [d "One" (tp 1 "one"); d "Eol" (TInt 1); d "Two" (tp 2 "21"); d "Two" (tp 2 "42"); d "Eol" (TInt 2); d "Three" (tp 3 "ab"); d "Three" (tp 3 "cd"); d "Three" (tp 3 "ef")]
  = Done (TSeq [tp 1 "one"; tp 1 "/"; TPair (TInt 2) (TSeq [TStr "21"; TStr "42"]); tp 2 "/"; TPair (TInt 3) (TSeq [TStr "ab"; TStr "cd"; TStr "ef"])]) [].
Proof. vm_compute. reflexivity. Qed.

(** ** Grammars that only have to be accepted *)
Definition builds (ds : list decl) : bool := match build 300 ida ds with GOk _ => true | _ => false end.
Definition auto_rule := [DType 0 "input" (T "String"); DType 0 "number" (T "String"); DType 0 "Number" (T "String"); rn "input" [sy "number"]; rn "number" [sy "Number"]; rn "number" [sy "LParen"; sy "Number"; sy "RParen"]].
Example accepted_only : map builds
  [auto_rule; [DDefaultType (TyOption i32); rc "input" [al "Terminal"] 1]; [DError (TyName "String"); rn "start" []]; [DStartSymbol "start"; rn "nostart" []; rn "start" [sy "nostart"]];
   [DType 0 "One" (T "(i32, u8)"); DType 0 "Two" (T "String"); rc "input" [al "One"; al "Two"] 1; rn "input" [sy "Two"; sy "One"]];
   (* compile-fail/compound.rs, module three *) [DType 0 "Number" (Some i32); DTokenClass "Number" ["One"; "Two"]; rn "start" []]] = repeat true 6.
Proof. vm_compute. reflexivity. Qed.

(** ** examples/json.rs *)
Definition json : list decl :=
  [DType 1 "LBrace" None; DType 1 "RBrace" None; DType 1 "LBracket" None; DType 1 "RBracket" None; DType 1 "Comma" None; DType 1 "Colon" None;
   DType 1 "JNumber" (T "i64"); DType 1 "JString" (T "String"); DType 1 "JNull" None; DType 1 "JTrue" None; DType 1 "JFalse" None;
   DType 0 "start" (T "JObject"); DType 0 "jobject" (T "JObject"); DType 0 "jdict" (T "JObject"); DType 0 "jarray" (T "JObject");
   DType 0 "jobject_list" (T "Vec<JObject>"); DType 0 "jitem_list" (T "HashMap<String, JObject>"); DType 0 "jitem" (T "(String, JObject)");
   rc "start" [al "jobject"] 1; rc "jobject" [al "jdict"] 1; rc "jobject" [al "jarray"] 1; rc "jobject" [al "JNumber"] 1; rc "jobject" [al "JString"] 1;
   rc "jobject" [sy "JTrue"] 2; rc "jobject" [sy "JFalse"] 3; rc "jobject" [sy "JNull"] 4;
   rc "jdict" [sy "LBrace"; oa "jitem_list"; sy "RBrace"] 5; rc "jarray" [sy "LBracket"; oa "jobject_list"; sy "RBracket"] 6;
   rc "jobject_list" [al "jobject"] 7; rc "jobject_list" [al "jobject_list"; sy "Comma"; al "jobject"] 8;
   rc "jitem_list" [al "jitem"] 7; rc "jitem_list" [al "jitem_list"; sy "Comma"; al "jitem"] 8; rc "jitem" [al "JString"; sy "Colon"; al "jobject"] 9].
Definition json_sem : tsem := std (fun c l x => ok x match c, l with
  | 1, [v] => v | 2, _ => TStr "true" | 3, _ => TStr "false" | 4, _ => TStr "null" | 5, [TSome v] => TUn "dict" v | 5, _ => TUn "dict" (TSeq [])
  | 6, [TSome v] => TUn "array" v | 6, _ => TUn "array" (TSeq []) | 7, [v] => TSeq [v] | 8, [TSeq l; v] => TSeq (l ++ [v]) | 9, [k; v] => TPair k v | _, _ => TUnit end).
(** { "a" : [1, [], true], "b" : {} } *)
Example json_test : drive json_sem json [] true
  [u "LBrace"; d "JString" (TStr "a"); u "Colon"; u "LBracket"; d "JNumber" (TInt 1); u "Comma"; u "LBracket"; u "RBracket"; u "Comma"; u "JTrue"; u "RBracket"; u "Comma";
   d "JString" (TStr "b"); u "Colon"; u "LBrace"; u "RBrace"; u "RBrace"]
  = Done (TUn "dict" (TSeq [TPair (TStr "a") (TUn "array" (TSeq [TInt 1; TUn "array" (TSeq []); TStr "true"])); TPair (TStr "b") (TUn "dict" (TSeq []))])) [].
Proof. vm_compute. reflexivity. Qed.
Example json_wrong : drive json_sem json [] true [u "LBrace"; u "JTrue"; u "RBrace"] = Failed_ "syntax" [].
Proof. vm_compute. reflexivity. Qed.

(** ** compile-fail: the error of each grammar *)
Definition error_of (ds : list decl) : option gerr := match build 300 ida ds with GErr e => Some e | _ => None end.
Definition inp : list decl := [rn "input" []].
Example compile_fail : map error_of
  [ (* attributes.rs *) [DType 1 "A" None; DType 1 "B" (T "i8"); DType 1 "x" (T "i8")] ++ inp;
    (* cannot-reduce.rs *) inp ++ [rn "foo" [sy "Tok"]];
    (* compound.rs *) [DType 0 "One" (T "i32"); DType 0 "Two" (T "i8"); rc "start" [(["One"; "Two"; "Three"], false, Some "A")] 1];
    [DType 0 "One" (T "i32"); DType 0 "Two" (T "i8"); DTokenClass "Number" ["One"; "Two"]; rc "start" [al "Number"] 1];
    (* definitions.rs *) [DDefaultType i32; DDefaultType i32] ++ inp; [DExtraArgument i32; DExtraArgument i32] ++ inp; [DExtraToken i32; DExtraToken i32] ++ inp;
    [DError i32; DError i32] ++ inp; [DStartSymbol "input"; DStartSymbol "input"] ++ inp; [DStartSymbol "Foo"] ++ inp; [DFallback "foo" ["Bar"]] ++ inp;
    [DFallback "Foo" ["bar"]] ++ inp; [DFallback "Foo" ["Bar"]; DFallback "Baz" ["Bar"]] ++ inp; [DWildcard "Foo"; DWildcard "Bar"] ++ inp; [DWildcard "foo"] ++ inp;
    [DTokenClass "foo" ["Bar"]] ++ inp; [DTokenClass "Foo" ["bar"]] ++ inp; [DToken 0 []; DToken 0 []] ++ inp; [DWildcard "Foo"; DType 0 "Foo" (T "i8")] ++ inp;
    [DToken 1 []] ++ inp; [DParser 0 []; DParser 0 []] ++ inp; [DParser 1 []] ++ inp;
    (* fallback.rs *) [DFallback "One" ["Two"; "Three"]; DType 0 "One" (T "i8")] ++ inp; [DFallback "One" ["Two"]; DFallback "Two" ["Three"]; DFallback "Three" ["One"]] ++ inp;
    (* generics.rs, module C *) [DParser 0 ["T"]; DToken 0 ["T"; "G"]] ++ inp;
    (* non-ascii.rs *) [DType 0 "_xxx" (T "i8")] ++ inp; [rn "input" [sy "_xxx"]];
    (* norules.rs *) [];
    (* rule-no-code.rs *) [DType 0 "foo" (T "i32"); rn "input" [sy "foo"]; rn "foo" [sy "Tok"]];
    (* rules.rs *) [rn "input" [sy "foo"]]; inp ++ [rn "Foo" []]; [rn "input" [(["A"; "B"; "c"], false, None)]]; [DRule "input" [sy "A"] None (Some "foo")];
    (* start-in-rhs.rs *) [rn "input" [sy "foo"]; rn "foo" [sy "input"]];
    (* symbols.rs *) [DType 0 "Foo" (T "i8"); DType 0 "Foo" (T "i8")] ++ inp; [DAssoc ALeft ["Foo"]; DAssoc ALeft ["Foo"]] ++ inp; [DAssoc ALeft ["foo"]] ++ inp;
    (* wildcard.rs *) [DWildcard "Foo"; rc "start" [al "Foo"] 1] ]
  = map Some [EAttrs; ENotReduced; ECompoundAlias; ECompoundAlias; EDefaultTypeDup; EExtraArgDup; EExtraTokenDup; EErrorTypeDup; EStartDup; EStartTerm; EFallbackTok; EFallbackIds;
     EFallbackDup; EWildDup; EWildTok; EClassTok; EClassIds; ETokenDup; EWildType; ETokenNotEmpty; EParserDup; EParserNotEmpty; EFallbackType; EFallbackLoop; EGenerics; EBadIdent; EBadIdent;
     ENoRules; ETypedNoCode; ENtNoRules; ELhs; ECompound; EPrecSym; EStartRhs; ETypeDup; EPrecDup; EPrecNonTerm; EWildAlias].
Proof. vm_compute. reflexivity. Qed.
