(** * C11 syntax of declarations, statements and files, as a specification

    [H nonterminal tokens meaning], continuing Grammar.v: 6.7 declarations, 6.7.2.1-6.7.2.2 structures and enumerations,
    6.7.9 initializers, 6.8 statements, 6.9 function definitions; [F] is a file (6.9), where each typedef
    declaration changes which identifiers are type names in what follows (6.7.8).

    Statements carry whether they can take a following else ([HStmt true]): the else of an if belongs to the nearest
    if allowed (6.8.4.1p3), so the first substatement of an if-else must not end in an if without else.

    Left out of C (pnut has no syntax for it): bit-fields, designators, declarations in for, static assertions,
    old-style parameter declarations, declarations that begin with no specifier.
    Deviations, each refuted in PropParseStmt.v when dropped:
    (R4) the token after the label of a goto carries the label's value (so it does when read from the file);
    (R5) a declaration with a storage class has no type name, parameter list or qualifier in its declarators and
    initializers;  (R6) typedef declarations are at file scope, and the names they declare are not used as
    types inside the same declaration;  (R7) the shell build has no nested initializer lists and a typedef of a tag has
    the tag's name. *)
From Coq Require Import ZArith List Bool Lia.
From Verif Require Import Base Ast EvalConst Enum Parse Grammar ParseStmt.
Import ListNotations.
Open Scope Z_scope.

Inductive hnt :=
| HSpecs | HSpec | HCore | HMembers | HMDecls (base : ast) | HEnums
| HInit | HInits | HIDeclr (for_typedef : bool) (base : ast) | HTail (for_typedef : bool) (base : ast)
| HDecl | HFun | HTypedef | HStmt (open : bool) | HOpt | HItems.
Inductive hobj :=
| QE (e : ast) | QL (l : list ast) | QN (l : list (Z * option ast))
| QS (t : ast) (sc : Z)                                 (* type and storage class *)
| QI (cores : list ast) (scs qs : list Z).              (* the specifiers: types, storage classes, qualifiers *)

Definition storage_classes : list Z := [AUTO_KW; REGISTER_KW; STATIC_KW; EXTERN_KW; TYPEDEF_KW].
Definition bits (qs : list Z) : Z := fold_left (fun q t => Z.lor q (MK_TYPE_SPECIFIER t)) qs 0.
Definition no_types (ts : list token) : Prop := Forall (fun t => is_type_starter (fst t) = false) ts.
(* the tag of a struct, union or enum specifier *)
Inductive tag : list token -> ast -> Prop :=
| tag_none : tag [] (Raw 0)
| tag_some t x : t = IDENTIFIER \/ t = TYPE -> tag [(t, x)] (new_ast0 IDENTIFIER x).
(* a struct, union or enum type *)
Definition tagged (b : ast) : Prop := In (get_op b) [STRUCT_KW; UNION_KW; ENUM_KW].
Definition param_named (p : ast) : Prop := match child 0 p with Raw _ => False | _ => True end.

Section Grammar.
Variable sh : bool.
Variable td : tdm.
Variable join : Z -> Z -> Z.
Notation G := (G sh td join).

Inductive H : hnt -> list token -> hobj -> Prop :=
(* 6.7 declaration specifiers, in any order *)
| h_nil : H HSpecs [] (QI [] [] [])
| h_qual t a ts cs ss qs : t = CONST_KW \/ t = VOLATILE_KW -> H HSpecs ts (QI cs ss qs) -> H HSpecs ((t, a) :: ts) (QI cs ss (t :: qs))
| h_storage t a ts cs ss qs : In t storage_classes -> H HSpecs ts (QI cs ss qs) -> H HSpecs ((t, a) :: ts) (QI cs (t :: ss) qs)
| h_inline a ts cs ss qs : H HSpecs ts (QI cs ss qs) -> H HSpecs ((INLINE_KW, a) :: ts) (QI cs ss qs)
| h_type c b ts cs ss qs : H HCore c (QE b) -> H HSpecs ts (QI cs ss qs) -> H HSpecs (c ++ ts) (QI (b :: cs) ss qs)
| h_spec ts b ss qs : H HSpecs ts (QI [b] ss qs) -> (length ss <= 1)%nat -> (qs <> [] -> get_op b <> LBRACK /\ get_op b <> LPAR) ->
    H HSpec ts (QS (qualify (bits qs) b) (hd 0 ss))
(* 6.7.2 type specifiers *)
| h_core ts b : core sh td ts b -> H HCore ts (QE b)
| h_struct k a nts n b ts l c : k = STRUCT_KW \/ k = UNION_KW -> tag nts n -> H HMembers ts (QL l) ->
    H HCore ((k, a) :: nts ++ (LBRACE, b) :: ts ++ [(RBRACE, c)]) (QE (new_ast3 k (Raw 0) n (list_node l)))
| h_enum a nts n b ts l vs c : tag nts n -> H HEnums ts (QN l) -> parse_enumerators sh l = Some vs ->
    H HCore ((ENUM_KW, a) :: nts ++ (LBRACE, b) :: ts ++ [(RBRACE, c)]) (QE (new_ast3 ENUM_KW (Raw 0) n (list_node vs)))
(* 6.7.2.1 members *)
| h_mem0 : H HMembers [] (QL [])
| h_mem_anon ts b a ts2 l : H HSpec ts (QS b 0) -> tagged b -> H HMembers ts2 (QL l) ->
    H HMembers (ts ++ (SEMI, a) :: ts2) (QL (new_ast3 DECL (Raw 0) b (Raw 0) :: l))
| h_mem ts b ts1 l1 a ts2 l : H HSpec ts (QS b 0) -> H (HMDecls b) ts1 (QL l1) -> H HMembers ts2 (QL l) ->
    H HMembers (ts ++ ts1 ++ (SEMI, a) :: ts2) (QL (l1 ++ l))
| h_mdecl b ts n ls : G (GDeclr false) ts (OD n ls) -> okty ls b -> H (HMDecls b) ts (QL [decl_node n ls b])
| h_mdecls b ts n ls a ts2 l : G (GDeclr false) ts (OD n ls) -> okty ls b -> H (HMDecls b) ts2 (QL l) ->
    H (HMDecls b) (ts ++ (COMMA, a) :: ts2) (QL (decl_node n ls b :: l))
(* 6.7.2.2 enumerators, with an optional comma at the end *)
| h_en1 x : H HEnums [(IDENTIFIER, x)] (QN [(x, None)])
| h_en1v x a ts e : G GAssign ts (OE e) -> H HEnums ((IDENTIFIER, x) :: (EQ, a) :: ts) (QN [(x, Some e)])
| h_en1c x a : H HEnums [(IDENTIFIER, x); (COMMA, a)] (QN [(x, None)])
| h_en1vc x a ts e b : G GAssign ts (OE e) -> H HEnums ((IDENTIFIER, x) :: (EQ, a) :: ts ++ [(COMMA, b)]) (QN [(x, Some e)])
| h_en x a ts l : H HEnums ts (QN l) -> H HEnums ((IDENTIFIER, x) :: (COMMA, a) :: ts) (QN ((x, None) :: l))
| h_env x a ts e b ts2 l : G GAssign ts (OE e) -> H HEnums ts2 (QN l) ->
    H HEnums ((IDENTIFIER, x) :: (EQ, a) :: ts ++ (COMMA, b) :: ts2) (QN ((x, Some e) :: l))
(* 6.7.9 initializers *)
| h_init ts e : G GAssign ts (OE e) -> H HInit ts (QE e)
| h_initl a ts l b : H HInits ts (QL l) -> H HInit ((LBRACE, a) :: ts ++ [(RBRACE, b)]) (QE (new_ast1 INITIALIZER_LIST (list_node l)))
| h_inits1 ts e : H HInit ts (QE e) -> (sh = true -> tk ts <> LBRACE) (* R7 *) -> H HInits ts (QL [e])
| h_inits1c ts e a : H HInit ts (QE e) -> (sh = true -> tk ts <> LBRACE) -> H HInits (ts ++ [(COMMA, a)]) (QL [e])
| h_inits ts e a ts2 l : H HInit ts (QE e) -> (sh = true -> tk ts <> LBRACE) -> H HInits ts2 (QL l) -> H HInits (ts ++ (COMMA, a) :: ts2) (QL (e :: l))
(* 6.7 init-declarators *)
| h_declr tdf b ts n ls : G (GDeclr false) ts (OD n ls) -> okty ls b -> H (HIDeclr tdf b) ts (QE (decl_node n ls b))
| h_declri b ts n ls a ts2 i : G (GDeclr false) ts (OD n ls) -> okty ls b -> H HInit ts2 (QE i) ->
    H (HIDeclr false b) (ts ++ (EQ, a) :: ts2) (QE (new_ast3 DECL n (wrap ls b) i))
| h_tail0 tdf b : H (HTail tdf b) [] (QL [])
| h_tail tdf b a ts d ts2 l : H (HIDeclr tdf b) ts (QE d) -> H (HTail tdf b) ts2 (QL l) -> H (HTail tdf b) ((COMMA, a) :: ts ++ ts2) (QL (d :: l))
(* 6.7 declarations *)
| h_dtag ts b a : H HSpec ts (QS b 0) -> tagged b -> H HDecl (ts ++ [(SEMI, a)]) (QE b)
| h_dvars ts b sc ts1 d ts2 l a : H HSpec ts (QS b sc) -> sc <> TYPEDEF_KW -> H (HIDeclr false b) ts1 (QE d) -> H (HTail false b) ts2 (QL l) ->
    (sc = 0 \/ no_types (ts1 ++ ts2)) (* R5 *) ->
    H HDecl (ts ++ ts1 ++ ts2 ++ [(SEMI, a)]) (QE (new_ast2 DECLS (list_node (d :: l)) (Raw sc)))
(* 6.7.8 type definitions: the declarators *)
| h_typedef ts b ts1 d ts2 l a : H HSpec ts (QS b TYPEDEF_KW) -> H (HIDeclr true b) ts1 (QE d) -> H (HTail true b) ts2 (QL l) ->
    H HTypedef (ts ++ ts1 ++ ts2 ++ [(SEMI, a)]) (QL (d :: l))
(* 6.9.1 function definitions *)
| h_fun ts b sc ts1 n ps va ls a ts2 l c : H HSpec ts (QS b sc) -> sc <> TYPEDEF_KW -> G (GDeclr false) ts1 (OD n (LFun (list_node ps) va :: ls)) ->
    okty (LFun (list_node ps) va :: ls) b -> Forall param_named ps -> H HItems ts2 (QL l) ->
    H HFun (ts ++ ts1 ++ (LBRACE, a) :: ts2 ++ [(RBRACE, c)]) (QE (new_ast2 FUN_DECL (decl_node n (LFun (list_node ps) va :: ls) b) (block l)))
(* 6.8.2 blocks *)
| h_items0 : H HItems [] (QL [])
| h_items_d ts d ts2 l : H HDecl ts (QE d) -> H HItems ts2 (QL l) -> H HItems (ts ++ ts2) (QL (d :: l))
| h_items_s o ts d ts2 l : H (HStmt o) ts (QE d) -> H HItems ts2 (QL l) -> H HItems (ts ++ ts2) (QL (d :: l))
| h_block a ts l b : H HItems ts (QL l) -> H (HStmt false) ((LBRACE, a) :: ts ++ [(RBRACE, b)]) (QE (block l))
(* 6.8.3 *)
| h_opt0 : H HOpt [] (QE (Raw 0))
| h_opt ts e : G GExpr ts (OE e) -> H HOpt ts (QE e)
| h_expr ts e a : H HOpt ts (QE e) -> H (HStmt false) (ts ++ [(SEMI, a)]) (QE e)
(* 6.8.1 *)
| h_label o x a ts s : H (HStmt o) ts (QE s) -> H (HStmt o) ((IDENTIFIER, x) :: (COLON, a) :: ts) (QE (new_ast2 COLON (new_ast0 IDENTIFIER x) s))
| h_case o a ts1 e b ts s : G GCond ts1 (OE e) -> H (HStmt o) ts (QE s) -> H (HStmt o) ((CASE_KW, a) :: ts1 ++ (COLON, b) :: ts) (QE (new_ast2 CASE_KW e s))
| h_default o a b ts s : H (HStmt o) ts (QE s) -> H (HStmt o) ((DEFAULT_KW, a) :: (COLON, b) :: ts) (QE (new_ast1 DEFAULT_KW s))
(* 6.8.4 *)
| h_if o a b te e c ts s : G GExpr te (OE e) -> H (HStmt o) ts (QE s) ->
    H (HStmt true) ((IF_KW, a) :: (LPAR, b) :: te ++ (RPAR, c) :: ts) (QE (new_ast3 IF_KW (new_ast1 PARENS e) s (Raw 0)))
| h_ifelse o a b te e c ts s d ts2 s2 : G GExpr te (OE e) -> H (HStmt false) ts (QE s) -> H (HStmt o) ts2 (QE s2) ->
    H (HStmt o) ((IF_KW, a) :: (LPAR, b) :: te ++ (RPAR, c) :: ts ++ (ELSE_KW, d) :: ts2) (QE (new_ast3 IF_KW (new_ast1 PARENS e) s s2))
| h_switch o a b te e c ts s : G GExpr te (OE e) -> H (HStmt o) ts (QE s) ->
    H (HStmt o) ((SWITCH_KW, a) :: (LPAR, b) :: te ++ (RPAR, c) :: ts) (QE (new_ast2 SWITCH_KW (new_ast1 PARENS e) s))
(* 6.8.5 *)
| h_while o a b te e c ts s : G GExpr te (OE e) -> H (HStmt o) ts (QE s) ->
    H (HStmt o) ((WHILE_KW, a) :: (LPAR, b) :: te ++ (RPAR, c) :: ts) (QE (new_ast2 WHILE_KW (new_ast1 PARENS e) s))
| h_do o a ts s b c te e d f : H (HStmt o) ts (QE s) -> G GExpr te (OE e) ->
    H (HStmt false) ((DO_KW, a) :: ts ++ (WHILE_KW, b) :: (LPAR, c) :: te ++ [(RPAR, d); (SEMI, f)]) (QE (new_ast2 DO_KW s (new_ast1 PARENS e)))
| h_for o a b t1 e1 c t2 e2 d t3 e3 f ts s : H HOpt t1 (QE e1) -> H HOpt t2 (QE e2) -> H HOpt t3 (QE e3) -> H (HStmt o) ts (QE s) ->
    H (HStmt o) ((FOR_KW, a) :: (LPAR, b) :: t1 ++ (SEMI, c) :: t2 ++ (SEMI, d) :: t3 ++ (RPAR, f) :: ts) (QE (new_ast4 FOR_KW e1 e2 e3 s))
(* 6.8.6 *)
| h_goto a x : H (HStmt false) [(GOTO_KW, a); (IDENTIFIER, x); (SEMI, x)] (QE (new_ast1 GOTO_KW (new_ast0 IDENTIFIER x))) (* R4 *)
| h_continue a b : H (HStmt false) [(CONTINUE_KW, a); (SEMI, b)] (QE (new_ast0 CONTINUE_KW 0))
| h_break a b : H (HStmt false) [(BREAK_KW, a); (SEMI, b)] (QE (new_ast0 BREAK_KW 0))
| h_return a ts e b : H HOpt ts (QE e) -> H (HStmt false) ((RETURN_KW, a) :: ts ++ [(SEMI, b)]) (QE (new_ast1 RETURN_KW e)).
End Grammar.

(* 6.7.8 what the declarators of a typedef declaration add to the type names *)
Inductive typedefs_add (sh : bool) : tdm -> list ast -> tdm -> Prop :=
| ta_nil td : typedefs_add sh td [] td
| ta_cons td x t ds td' : (sh = true -> tagged t -> exists m, t = new_ast3 (get_op t) (Raw 0) (new_ast0 IDENTIFIER x) m) (* R7 *) ->
    typedefs_add sh (fun y => if y =? x then Some t else td y) ds td' ->
    typedefs_add sh td (new_ast3 DECL (new_ast0 IDENTIFIER x) t (Raw 0) :: ds) td'.
(* 6.9 a file: declarations, function definitions, and typedef declarations that extend the type names.
   The tokens are raw: an identifier counts as a type name according to the table in force. *)
Inductive F (sh : bool) (join : Z -> Z -> Z) : tdm -> list token -> list ast -> Prop :=
| f_nil td : F sh join td [] []
| f_decl td g ts d rest l : g = HDecl \/ g = HFun -> H sh td join g (map (cls td) ts) (QE d) -> F sh join td rest l -> F sh join td (ts ++ rest) (d :: l)
| f_typedef td ts ds td' rest l : H sh td join HTypedef (map (cls td) ts) (QL ds) -> typedefs_add sh td ds td' ->
    F sh join td' rest l -> F sh join td (ts ++ rest) (new_ast1 TYPEDEF_KW (list_node ds) :: l).
