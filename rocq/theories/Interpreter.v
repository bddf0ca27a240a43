(** The grammar of /repo/examples/interpreter/parser.rs: it is accepted, its rows do not collide,
    its types agree, and the program of examples/interpreter/test.txt gets the tree its blocks build. *)
From Verif Require Import Base Syntax FrontEnd First States Actions Tables Runtime User DeclSpec LangFacts TypeDecl Main Checks Demo Refutations RepoTests.
From Coq Require Import Permutation.
Open Scope string_scope. Open Scope nat_scope. Open Scope list_scope.

Definition bin (c : code) (o : ident) : decl := rc "expr" [al "expr"; sy o; al "expr"] c.
Definition interpreter : list decl :=
  [DToken 0 []; DExtraArgument (TyName "Program"); DType 0 "Ident" (T "String"); DType 0 "Number" (T "i64"); DType 0 "String" (T "String"); DType 0 "expr" (T "Expr");
   DType 0 "expr_list" (T "Vec<Expr>"); DType 0 "stmt" (T "Stmt"); DType 0 "block" (T "Vec<Stmt>"); DType 0 "stmt_list" (T "Vec<Stmt>"); DType 0 "arg_list" (T "Vec<String>");
   DType 0 "f_decl" (T "Function"); DType 0 "v_decl" (T "Variable");
   DAssoc ALeft ["Else"]; DAssoc ARight ["Assign"]; DAssoc ALeft ["Or"]; DAssoc ALeft ["And"]; DAssoc ANone ["Equal"; "NotEqual"]; DAssoc ANone ["Less"; "LessEq"; "Greater"; "GreaterEq"];
   DAssoc ALeft ["Plus"; "Minus"]; DAssoc ALeft ["Mult"; "Div"]; DAssoc ANone ["Not"];
   rn "input" [op "decl_list"]; rn "decl_list" [sy "decl"]; rn "decl_list" [sy "decl_list"; sy "decl"]; rc "decl" [al "f_decl"] 1; rc "decl" [al "v_decl"] 1;
   rc "f_decl" [sy "Fn"; al "Ident"; sy "LParen"; oa "arg_list"; sy "RParen"; al "block"] 2; rc "arg_list" [al "Ident"] 3; rc "arg_list" [al "arg_list"; sy "Comma"; al "Ident"] 4;
   rc "block" [sy "LBrace"; oa "stmt_list"; sy "RBrace"] 5; rc "v_decl" [sy "Var"; al "Ident"; sy "Assign"; al "expr"; sy "Semicolon"] 6;
   rc "stmt_list" [al "stmt"] 3; rc "stmt_list" [al "stmt_list"; al "stmt"] 4;
   rc "stmt" [al "block"] 7; rc "stmt" [al "expr"; sy "Semicolon"] 8; DRule "stmt" [sy "If"; sy "LParen"; al "expr"; sy "RParen"; al "stmt"] (Some 9) (Some "Else");
   rc "stmt" [sy "If"; sy "LParen"; al "expr"; sy "RParen"; al "stmt"; sy "Else"; al "stmt"] 10; rc "stmt" [sy "While"; sy "LParen"; al "expr"; sy "RParen"; al "stmt"] 11;
   rc "stmt" [sy "Return"; al "expr"; sy "Semicolon"] 12; rc "stmt" [sy "Return"; sy "Semicolon"] 13; rc "stmt" [sy "Break"; sy "Semicolon"] 14; rc "stmt" [sy "Continue"; sy "Semicolon"] 15;
   rc "expr" [al "Number"] 16; rc "expr" [al "String"] 17; rc "expr" [al "Ident"] 18; rc "expr" [al "Ident"; sy "LParen"; oa "expr_list"; sy "RParen"] 19; rc "expr" [sy "LParen"; al "expr"; sy "RParen"] 20;
   bin 21 "Plus"; bin 22 "Minus"; bin 23 "Mult"; bin 24 "Div"; DRule "expr" [sy "Minus"; al "expr"] (Some 25) (Some "Not"); bin 26 "Equal"; bin 27 "NotEqual"; bin 28 "And"; bin 29 "Or";
   rc "expr" [sy "Not"; al "expr"] 30; bin 31 "Less"; bin 32 "Greater"; bin 33 "LessEq"; bin 34 "GreaterEq"; bin 35 "Assign";
   rc "expr_list" [al "expr"] 3; rc "expr_list" [al "expr_list"; sy "Comma"; al "expr"] 4].
Definition interpreter_sem : tsem := std (fun c l x => match c, l with
  | 1, [v] => ok (push x v) TUnit
  | 2, [n; a; b] => ok x (TBin "fn" n (TPair (match a with TSome v => v | _ => TSeq [] end) b))
  | 3, [v] => ok x (TSeq [v]) | 4, [TSeq l; v] => ok x (TSeq (l ++ [v])) | 5, [TSome v] => ok x v | 5, _ => ok x (TSeq [])
  | 6, [n; e] => ok x (TBin "var" n e) | 7, [b] => ok x (TUn "block" b) | 8, [e] => ok x (TUn "expr" e)
  | 9, [e; s] => ok x (TBin "if" e s) | 10, [e; s; s'] => ok x (TBin "if" e (TPair s s')) | 11, [e; s] => ok x (TBin "while" e s)
  | 12, [e] => ok x (TUn "return" e) | 13, [] => ok x (TStr "return") | 14, [] => ok x (TStr "break") | 15, [] => ok x (TStr "continue")
  | 16, [v] => ok x v | 17, [v] => ok x v | 18, [v] => ok x (TUn "name" v) | 19, [n; TSome v] => ok x (TBin "call" n v) | 19, [n; _] => ok x (TBin "call" n (TSeq [])) | 20, [e] => ok x e
  | 21, [a; b] => ok x (TBin "+" a b) | 22, [a; b] => ok x (TBin "-" a b) | 23, [a; b] => ok x (TBin "*" a b) | 24, [a; b] => ok x (TBin "/" a b) | 25, [a] => ok x (TUn "-" a)
  | 26, [a; b] => ok x (TBin "==" a b) | 27, [a; b] => ok x (TBin "!=" a b) | 28, [a; b] => ok x (TBin "&&" a b) | 29, [a; b] => ok x (TBin "||" a b) | 30, [a] => ok x (TUn "!" a)
  | 31, [a; b] => ok x (TBin "<" a b) | 32, [a; b] => ok x (TBin ">" a b) | 33, [a; b] => ok x (TBin "<=" a b) | 34, [a; b] => ok x (TBin ">=" a b) | 35, [a; b] => ok x (TBin "=" a b)
  | _, _ => ok x TUnit end).
Definition nm (s : string) : string * option tval := d "Ident" (TStr s).
Definition vr (s : string) : tval := TUn "name" (TStr s).
Definition interpreter_toks : list (string * option tval) :=
  [u "Fn"; nm "test"; u "LParen"; nm "a"; u "Comma"; nm "b"; u "Comma"; nm "c"; u "RParen"; u "LBrace";
   u "If"; u "LParen"; nm "a"; u "Equal"; nm "b"; u "RParen"; nm "a"; u "Assign"; nm "b"; u "Plus"; nm "c"; u "Semicolon";
   u "Return"; nm "a"; u "Plus"; d "String" (TStr "h"); u "Plus"; d "String" (TStr ""); u "Semicolon";
   u "Return"; nm "foo"; u "LParen"; d "Number" (TInt 1); u "Comma"; nm "bar"; u "LParen"; d "String" (TStr ""); u "Mult"; d "Number" (TInt 5); u "Comma"; nm "zed"; u "LParen"; u "RParen"; u "RParen";
   u "Comma"; d "Number" (TInt 4); u "RParen"; u "Semicolon"; u "RBrace";
   u "Var"; nm "x"; u "Assign"; nm "test"; u "LParen"; d "Number" (TInt 3); u "Plus"; d "Number" (TInt 4); u "Comma"; d "Number" (TInt 5); u "Comma"; d "Number" (TInt 6); u "RParen"; u "Semicolon"].
Definition interpreter_tree : list tval :=
  [TBin "fn" (TStr "test") (TPair (TSeq [TStr "a"; TStr "b"; TStr "c"])
    (TSeq [TBin "if" (TBin "==" (vr "a") (vr "b")) (TUn "expr" (TBin "=" (vr "a") (TBin "+" (vr "b") (vr "c"))));
           TUn "return" (TBin "+" (TBin "+" (vr "a") (TStr "h")) (TStr ""));
           TUn "return" (TBin "call" (TStr "foo") (TSeq [TInt 1; TBin "call" (TStr "bar") (TSeq [TBin "*" (TStr "") (TInt 5); TBin "call" (TStr "zed") (TSeq [])]); TInt 4]))]));
   TBin "var" (TStr "x") (TBin "call" (TStr "test") (TSeq [TBin "+" (TInt 3) (TInt 4); TInt 5; TInt 6]))].
Definition run_of (sm : tsem) (ds : list decl) (toks : list (string * option tval)) : option (bool * bool * (tval * txtra)) :=
  match build 300 ida ds with
  | GOk b => match api_run 300 (bt_tables b) sm [] (map (tk (bt_tables b)) toks) with ROk r _ => Some (fine_b ds b, types_b ds, r) | _ => None end
  | _ => None
  end.
Lemma run_parts sm ds toks v : run_of sm ds toks = Some (true, true, v) ->
  exists b p, expands ds b /\ usable ds b /\ types_ok ds /\ api_run 300 (bt_tables b) sm [] (map (tk (bt_tables b)) toks) = ROk v p.
Proof.
  unfold run_of. destruct (build 300 ida ds) as [b| | |] eqn:E; try discriminate. destruct (api_run 300 (bt_tables b) sm [] (map (tk (bt_tables b)) toks)) as [r p| | |] eqn:R; try discriminate.
  intros H. injection H as H1 H2 ->. exists b, p. split; [exists 300, ida; split; auto; intros l; apply Permutation_refl|]. split; [exact (fine_b_ok _ _ H1)|]. split; [exact (types_b_ok _ H2)|exact R].
Qed.
Lemma interpreter_ran : run_of interpreter_sem interpreter interpreter_toks = Some (true, true, (TUnit, interpreter_tree)).
Proof. vm_compute. reflexivity. Qed.
Example interpreter_test : exists b p, expands interpreter b /\ usable interpreter b /\ types_ok interpreter /\
  api_run 300 (bt_tables b) interpreter_sem [] (map (tk (bt_tables b)) interpreter_toks) = ROk (TUnit, interpreter_tree) p.
Proof. exact (run_parts _ _ _ _ interpreter_ran). Qed.
