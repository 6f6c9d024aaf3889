(** * From the characters of a source file to the program the native code generator compiles

    get_tok without the preprocessor is Lex.v, the parser is Parse.v and ParseStmt.v, the code generator NGen.v and NProg.v.
    Here: how an identifier becomes a keyword or a name, and which constructs the code generator sees in a tree.
    exe.c walks the tree and tests its operators; NGen and NProg walk [expr], [stmt] and [gdecl] of CLang.v.  [read_e],
    [read_s] and [read_g] are that test.  Trees outside the fragment (strings, structures, enumerations, goto, calls
    through pointers, variadic functions, initializer lists, static or extern variables) are [None].
    Simplifications: operator and keyword tokens carry the value 0 (the parser uses it only in goto, see R4 of
    GrammarStmt.v); the native builds accept suffixes on integer literals (Literals.v, [scan_suffix]), which are left out. *)
From Coq Require Import ZArith List Bool Lia Ascii String.
From Verif Require Import Base Ast EvalConst Lex Parse ParseStmt CLang CProg.
Import ListNotations.
Local Notation length := List.length.
Open Scope Z_scope.
Open Scope list_scope.

(** ** Identifiers *)
(** pnut.c:1605-1637 [init_ident_table] *)
Definition keywords : list (list Z * Z) :=
  [(zs "auto", AUTO_KW); (zs "break", BREAK_KW); (zs "case", CASE_KW); (zs "char", CHAR_KW); (zs "const", CONST_KW);
   (zs "continue", CONTINUE_KW); (zs "default", DEFAULT_KW); (zs "do", DO_KW); (zs "double", DOUBLE_KW); (zs "else", ELSE_KW);
   (zs "enum", ENUM_KW); (zs "extern", EXTERN_KW); (zs "float", FLOAT_KW); (zs "for", FOR_KW); (zs "goto", GOTO_KW);
   (zs "if", IF_KW); (zs "inline", INLINE_KW); (zs "int", INT_KW); (zs "long", LONG_KW); (zs "register", REGISTER_KW);
   (zs "return", RETURN_KW); (zs "short", SHORT_KW); (zs "signed", SIGNED_KW); (zs "sizeof", SIZEOF_KW); (zs "static", STATIC_KW);
   (zs "struct", STRUCT_KW); (zs "switch", SWITCH_KW); (zs "typedef", TYPEDEF_KW); (zs "union", UNION_KW);
   (zs "unsigned", UNSIGNED_KW); (zs "void", VOID_KW); (zs "volatile", VOLATILE_KW); (zs "while", WHILE_KW)].
Fixpoint leqb (a b : list Z) : bool :=
  match a, b with [], [] => true | x :: a, y :: b => (x =? y) && leqb a b | _, _ => false end.
Fixpoint find_kw (n : list Z) (l : list (list Z * Z)) : option Z :=
  match l with [] => None | (k, t) :: l => if leqb n k then Some t else find_kw n l end.
(** pnut.c:2130-2147: a token; [idn] numbers the identifiers (C05: distinct names get distinct numbers). *)
Definition tok_of (idn : list Z -> Z) (t : ltok) : token :=
  match t with
  | LOp o => (o, 0)
  | LId n => match find_kw n keywords with Some k => (k, 0) | None => (IDENTIFIER, idn n) end
  | LNum _ v => (INTEGER, v)
  | LChr v => (CHARACTER, v)
  | LStr _ => (STRING, 0)
  end.

(** ** Types: exe.c:622-658 [type_width], 560-620 (the tests of a type), with the unsigned bit of pnut.c:2558 *)
Fixpoint read_ty (t : ast) : option ty :=
  match t with
  | Raw _ => None
  | Node op q kids =>
      match kids with
      | [] =>
          let sg := negb (Z.testbit q (UNSIGNED_KW - AUTO_KW)) in
          if op =? VOID_KW then Some TVoid
          else if op =? CHAR_KW then Some (TInt 1 sg)
          else if op =? SHORT_KW then Some (TInt 2 sg)
          else if op =? INT_KW then Some (TInt 4 sg)
          else if op =? LONG_KW then Some (TInt 8 sg)
          else None
      | [a; b] =>
          if op =? STAR then option_map TPtr (read_ty b)
          else if op =? LBRACK then match b, read_ty a with Raw n, Some t => Some (TArr t n) | _, _ => None end
          else None
      | _ => None
      end
  end.
(** The type in a DECL node. *)
Definition decl_ty (d : ast) : option ty :=
  match d with Node op _ [_; t; _] => if op =? DECL then read_ty t else None | _ => None end.
Definition is_decl (d : ast) : bool := match d with Node op _ [_; _; _] => op =? DECL | _ => false end.

(** ** Expressions: exe.c:1368-1663 [codegen_rvalue], 1235-1349 [codegen_lvalue] *)
(** exe.c:1436-1480, 991-1172: binary operators, and 1557-1590: with assignment *)
Definition read_bop (op : Z) : option bop :=
  if op =? PLUS then Some Add else if op =? MINUS then Some Sub else if op =? STAR then Some Mul
  else if op =? SLASHC then Some Div else if op =? PERCENT then Some Rem else if op =? AMP then Some And
  else if op =? BAR then Some Or else if op =? CARET then Some Xor else if op =? LSHIFT then Some Shl
  else if op =? RSHIFT then Some Shr else if op =? LT then Some Lt else if op =? GT then Some Gt
  else if op =? LT_EQ then Some Le else if op =? GT_EQ then Some Ge else if op =? EQ_EQ then Some Eq
  else if op =? EXCL_EQ then Some Ne else None.
Definition read_asgop (op : Z) : option bop :=
  if op =? PLUS_EQ then Some Add else if op =? MINUS_EQ then Some Sub else if op =? STAR_EQ then Some Mul
  else if op =? SLASH_EQ then Some Div else if op =? PERCENT_EQ then Some Rem else if op =? AMP_EQ then Some And
  else if op =? BAR_EQ then Some Or else if op =? CARET_EQ then Some Xor else if op =? LSHIFT_EQ then Some Shl
  else if op =? RSHIFT_EQ then Some Shr else None.
(** exe.c:1404-1435: one operand *)
Definition read_unop (op : Z) : option (expr -> expr) :=
  if op =? STAR then Some EDeref else if op =? PLUS then Some EPlus else if op =? PARENS then Some EPar
  else if op =? MINUS then Some ENeg else if op =? TILDE then Some EBnot else if op =? EXCL then Some ENot
  else if op =? PLUS_PLUS_POST then Some (EInc true true) else if op =? MINUS_MINUS_POST then Some (EInc true false)
  else if op =? PLUS_PLUS_PRE then Some (EInc false true) else if op =? MINUS_MINUS_PRE then Some (EInc false false)
  else if op =? AMP then Some EAddr else if op =? SIZEOF_KW then Some ESizeE else None.
(** two operands that are expressions *)
Definition read_op2 (op : Z) : option (expr -> expr -> expr) :=
  match read_bop op with
  | Some o => Some (EBin o)
  | None => match read_asgop op with
            | Some o => Some (EOpAsg o)
            | None => if op =? EQ then Some EAsg else if op =? LBRACK then Some EIdx else if op =? COMMA then Some EComma
                      else if op =? AMP_AMP then Some EAnd else if op =? BAR_BAR then Some EOr else None
            end
  end.
Definition name_of (t : ast) : option Z := match t with Node op x [] => if op =? IDENTIFIER then Some x else None | _ => None end.
Definition map2 {A B C} (f : A -> B -> C) (a : option A) (b : option B) : option C :=
  match a, b with Some a, Some b => Some (f a b) | _, _ => None end.
Fixpoint read_e (t : ast) : option expr :=
  match t with
  | Raw _ => None
  | Node op v kids =>
      match kids with
      | [] => if op =? INTEGER then Some (ELit (- v)) else if op =? CHARACTER then Some (EChr v)
              else if op =? IDENTIFIER then Some (EVar v) else None
      | [a] => if (op =? SIZEOF_KW) && is_decl a then option_map ESizeT (decl_ty a)
               else match read_unop op with Some f => option_map f (read_e a) | None => None end
      | [a; b] =>
          if op =? CAST then map2 ECast (decl_ty a) (read_e b)
          else if op =? LPAR then map2 ECall (name_of a) (read_args b)
          else if op =? DOT then map2 EDot (read_e a) (name_of b)
          else if op =? ARROW then map2 EArrow (read_e a) (name_of b)
          else match read_op2 op with Some f => map2 f (read_e a) (read_e b) | None => None end
      | [a; b; c] =>
          if op =? QUEST then match read_e a with Some a => map2 (ECond a) (read_e b) (read_e c) | None => None end else None
      | _ => None
      end
  end
(** exe.c:1174-1233 [codegen_call], 1186-1200 (codegen_params): the list of arguments *)
with read_args (t : ast) : option args :=
  match t with
  | Raw z => if z =? 0 then Some ANil else None
  | Node op _ kids => match kids with [a; b] => if op =? LIST then map2 ACons (read_e a) (read_args b) else None | _ => None end
  end.
Definition read_opt (t : ast) : option (option expr) :=
  match t with Raw z => if z =? 0 then Some None else None | _ => option_map Some (read_e t) end.

(** ** Declarations of variables: exe.c:2005-2064 *)
Definition one_decl (d : ast) : option (Z * ty * option expr) :=
  match d with
  | Node op _ [n; t; i] =>
      if op =? DECL then match name_of n, read_ty t, read_opt i with Some x, Some t, Some i => Some (x, t, i) | _, _, _ => None end else None
  | _ => None
  end.
Fixpoint read_decls (l : ast) : option (list (Z * ty * option expr)) :=
  match l with
  | Raw z => if z =? 0 then Some [] else None
  | Node op _ kids => match kids with [d; r] => if op =? LIST then map2 cons (one_decl d) (read_decls r) else None | _ => None end
  end.
Definition add_decls (l : list (Z * ty * option expr)) (k : items) : items := fold_right (fun '(x, t, i) k => IDecl x t i k) k l.

(** ** Statements: exe.c:2087-2346 [codegen_statement], 2066-2085 [codegen_body] *)
(** the constants of case labels in the fragment *)
Definition const_of (e : ast) : option Z :=
  match e with
  | Node op v [] => if op =? INTEGER then Some (- v) else if op =? CHARACTER then Some v else None
  | Node op _ [Node o v []] => if (op =? MINUS) && (o =? INTEGER) && (v <? 0) then Some v else None
  | _ => None
  end.
Definition plain (o : option (list lbl * stmt)) : option stmt := match o with Some ([], s) => Some s | _ => None end.
Definition lab (z : option lbl) (o : option (list lbl * stmt)) : option (list lbl * stmt) :=
  match z, o with Some z, Some (l, s) => Some (z :: l, s) | _, _ => None end.
Definition cons_item (a : ast) (s : option stmt) (l : option items) : option items :=
  match l with
  | None => None
  | Some l =>
      match a with
      | Node op _ [ds; Raw z] =>
          if op =? DECLS then (if z =? 0 then option_map (fun d => add_decls d l) (read_decls ds) else None) else option_map (fun s => IStmt s l) s
      | _ => option_map (fun s => IStmt s l) s
      end
  end.
Definition nolab (s : option stmt) : option (list lbl * stmt) := option_map (fun s => ([], s)) s.
Fixpoint read_ls (t : ast) : option (list lbl * stmt) :=
  match t with
  | Raw z => if z =? 0 then Some ([], SSkip) else None
  | Node op v kids =>
      match kids with
      | [] => if op =? BREAK_KW then Some ([], SBreak) else if op =? CONTINUE_KW then Some ([], SContinue) else nolab (option_map SExpr (read_e t))
      | [a] => if op =? RETURN_KW then nolab (option_map SReturn (read_opt a))
               else if op =? DEFAULT_KW then lab (Some LDefault) (read_ls a)
               else nolab (option_map SExpr (read_e t))
      | [a; b] =>
          if op =? LBRACE then nolab (option_map SBlock (cons_item a (plain (read_ls a)) (read_items b)))
          else if op =? CASE_KW then lab (option_map LCase (const_of a)) (read_ls b)
          else if op =? WHILE_KW then nolab (map2 SWhile (read_e a) (plain (read_ls b)))
          else if op =? DO_KW then nolab (map2 SDo (plain (read_ls a)) (read_e b))
          else if op =? SWITCH_KW then nolab (map2 SSwitch (read_e a) (read_swl b))
          else nolab (option_map SExpr (read_e t))
      | [a; b; c] =>
          if op =? IF_KW then nolab (match read_e a with Some e => map2 (SIf e) (plain (read_ls b)) (plain (read_ls c)) | None => None end)
          else nolab (option_map SExpr (read_e t))
      | [a; b; c; d] =>
          if op =? FOR_KW then nolab (match read_opt a, read_opt b with Some i, Some e => map2 (SFor i e) (read_opt c) (plain (read_ls d)) | _, _ => None end)
          else None
      | _ => None
      end
  end
with read_items (t : ast) : option items :=
  match t with
  | Raw z => if z =? 0 then Some INil else None
  | Node op _ kids =>
      match kids with [a; b] => if op =? LBRACE then cons_item a (plain (read_ls a)) (read_items b) else None | _ => None end
  end
with read_swl (t : ast) : option swl :=
  match t with
  | Raw z => if z =? 0 then Some WNil else None
  | Node op _ kids =>
      match kids with
      | [a; b] => if op =? LBRACE then match read_ls a with Some (l, s) => option_map (WCons l s) (read_swl b) | None => None end else None
      | _ => None
      end
  end.

(** ** File scope: exe.c:2427-2455 [codegen_glo_decl], 1960-1993 (codegen_glo_var_decl), 2367-2416 [codegen_glo_fun_decl],
    2348-2365 [add_params] (an array parameter is a pointer) *)
Definition adjust (t : ty) : ty := match t with TArr t _ => TPtr t | _ => t end.
Fixpoint read_params (l : ast) : option (list (Z * ty)) :=
  match l with
  | Raw z => if z =? 0 then Some [] else None
  | Node op _ kids =>
      match kids with
      | [d; r] => if op =? LIST then map2 cons (match one_decl d with Some (x, t, None) => Some (x, adjust t) | _ => None end) (read_params r) else None
      | _ => None
      end
  end.
Definition read_gvar (d : ast) : option gdecl :=
  match d with
  | Node op _ [n; Node o _ [rt; ps; Raw va]; Raw z] =>
      if (op =? DECL) && (o =? LPAR) && (z =? 0) && (va =? 0) then map2 DProto (name_of n) (read_ty rt) else None
  | _ => match one_decl d with Some (x, t, i) => Some (DVar x t i) | None => None end
  end.
Fixpoint read_gvars (l : ast) : option (list gdecl) :=
  match l with
  | Raw z => if z =? 0 then Some [] else None
  | Node op _ kids => match kids with [d; r] => if op =? LIST then map2 cons (read_gvar d) (read_gvars r) else None | _ => None end
  end.
Definition read_g (t : ast) : option (list gdecl) :=
  match t with
  | Node op _ [a; b] =>
      if op =? DECLS then match b with Raw sc => if (sc =? 0) || (sc =? STATIC_KW) then read_gvars a else None | _ => None end
      else if op =? FUN_DECL then
        match a with
        | Node o _ [n; Node o' _ [rt; ps; Raw va]; Raw z] =>
            if (o =? DECL) && (o' =? LPAR) && (va =? 0) && (z =? 0) then
              match name_of n, read_params ps, read_ty rt, read_items b with
              | Some f, Some ps, Some rt, Some body => Some [DFun f ps rt body]
              | _, _, _, _ => None
              end
            else None
        | _ => None
        end
      else None
  | Node op _ [a] => if op =? TYPEDEF_KW then option_map (fun _ => []) (read_decls a) else None
  | _ => None
  end.
(** pnut.c:4105-4118: every declaration in turn. *)
Fixpoint read_program (l : list ast) : option (list gdecl) :=
  match l with [] => Some [] | d :: r => map2 (@app gdecl) (read_g d) (read_program r) end.
