(** * C11 syntax of expressions, type names and declarators, as a specification

    [G nonterminal tokens meaning]: the tokens can be derived from the nonterminal of the C11 grammar
    (6.5, 6.7.6, 6.7.7) and [meaning] is the syntax tree C assigns.  Independent of the parser: it is
    the left-recursive grammar of the standard.  Deviations, all stated here:
    - the comma operator and argument lists are written as right-nested lists (same language);
    - a parenthesized expression keeps a PARENS node;
    - no generic selections, compound literals, alignof, or braces inside type names;
    - C's declaration specifiers in the orders of [basic] below, qualifiers before or after;
    - three restrictions marked (R1)-(R3), each refuted in PropParse.v when dropped. *)
From Coq Require Import ZArith List Bool Lia.
From Verif Require Import Base Ast EvalConst Parse.
Import ListNotations.
Open Scope Z_scope.

(* 6.7.2p2: the spellings of the basic types.  [long] has the size of int in pnut's targets
   and is represented as int; long long is the only type with its own node. *)
Definition nbase (k : Z) (uns : bool) : ast := new_ast0 k (if uns then MK_TYPE_SPECIFIER UNSIGNED_KW else 0).
Definition int_spellings : list (list Z * Z) :=
  [ ([CHAR_KW], CHAR_KW); ([INT_KW], INT_KW);
    ([SHORT_KW], SHORT_KW); ([SHORT_KW; INT_KW], SHORT_KW);
    ([LONG_KW], INT_KW); ([LONG_KW; INT_KW], INT_KW);
    ([LONG_KW; LONG_KW], LONG_KW); ([LONG_KW; LONG_KW; INT_KW], LONG_KW) ].
Definition basic (sh : bool) : list (list Z * ast) :=
  [([VOID_KW], nbase VOID_KW false); ([SIGNED_KW], nbase INT_KW false)]
  ++ map (fun p => (fst p, nbase (snd p) false)) int_spellings
  ++ map (fun p => (SIGNED_KW :: fst p, nbase (snd p) false)) int_spellings
  ++ (if sh then [] else
      [([UNSIGNED_KW], nbase INT_KW true)]
      ++ map (fun p => (UNSIGNED_KW :: fst p, nbase (snd p) true)) int_spellings).

(* layers that make a type C forbids: arrays of void or of functions *)
Fixpoint okty (ls : list layer) (base : ast) : Prop :=
  match ls with
  | [] => True
  | LArr _ :: r => match r with
                   | [] => get_op base <> VOID_KW
                   | LFun _ _ :: _ => False
                   | _ => True
                   end /\ okty r base
  | _ :: r => okty r base
  end.

Inductive gnt := GPrim | GPost | GUnary | GCast | GBin (k : nat) | GCond | GAssign | GExpr | GArgs
               | GType | GDeclr (abs : bool) | GDirect (abs : bool) | GParam | GPList | GParams.
Inductive obj := OE (e : ast) | OD (name : ast) (ls : list layer) | OL (l : list ast) (variadic : bool).

Section Grammar.
Variable sh : bool.
Variable typedefs : Z -> option ast.
Variable join : Z -> Z -> Z.

Definition quals (ts : list token) : Prop := Forall (fun t => fst t = CONST_KW \/ fst t = VOLATILE_KW) ts.
Definition qbits (ts : list token) : Z := fold_left (fun q t => Z.lor q (MK_TYPE_SPECIFIER (fst t))) ts 0.
Definition qualify (q : Z) (t : ast) : ast := if q =? 0 then t else or_slot0 t q.

Inductive core : list token -> ast -> Prop :=
| core_basic ts b : In (map fst ts, b) (basic sh) -> core ts b
| core_typedef x b : typedefs x = Some b -> core [(TYPE, x)] b
| core_tag k a t x : In k [STRUCT_KW; UNION_KW; ENUM_KW] -> t = IDENTIFIER \/ t = TYPE ->
    core [(k, a); (t, x)] (new_ast3 k (Raw 0) (new_ast0 IDENTIFIER x) (Raw 0)).
(* 6.7 declaration-specifiers (in type names and parameters) *)
Inductive specs : list token -> ast -> Prop :=
| Specs q1 c q2 b : quals q1 -> quals q2 -> core c b ->
    (q1 ++ q2 <> [] -> get_op b <> LBRACK /\ get_op b <> LPAR) ->
    specs (q1 ++ c ++ q2) (qualify (qbits (q1 ++ q2)) b).

Definition has (t : Z) (ts : list token) : Prop := In t (map fst ts).

Inductive G : gnt -> list token -> obj -> Prop :=
(* 6.5.1 primary expressions *)
| g_leaf t x : is_leaf t = true -> G GPrim [(t, x)] (OE (new_ast0 t x))
| g_string x xs : G GPrim ((STRING, x) :: map (fun y => (STRING, y)) xs) (OE (new_ast0 STRING (fold_left join xs x)))
| g_paren a ts b e : G GExpr ts (OE e) -> G GPrim ((LPAR, a) :: ts ++ [(RPAR, b)]) (OE (new_ast1 PARENS e))
(* 6.5.2 postfix expressions *)
| g_post ts o : G GPrim ts o -> G GPost ts o
| g_index ts e a ts2 e2 b : G GPost ts (OE e) -> G GExpr ts2 (OE e2) ->
    G GPost (ts ++ (LBRACK, a) :: ts2 ++ [(RBRACK, b)]) (OE (new_ast2 LBRACK e e2))
| g_call0 ts e a b : G GPost ts (OE e) -> G GPost (ts ++ [(LPAR, a); (RPAR, b)]) (OE (new_ast2 LPAR e (Raw 0)))
| g_call ts e a ts2 e2 b : G GPost ts (OE e) -> G GArgs ts2 (OE e2) ->
    G GPost (ts ++ (LPAR, a) :: ts2 ++ [(RPAR, b)]) (OE (new_ast2 LPAR e e2))
| g_dot ts e a x : G GPost ts (OE e) -> G GPost (ts ++ [(DOT, a); (IDENTIFIER, x)]) (OE (new_ast2 DOT e (new_ast0 IDENTIFIER x)))
| g_arrow ts e a x : G GPost ts (OE e) -> G GPost (ts ++ [(ARROW, a); (IDENTIFIER, x)]) (OE (new_ast2 ARROW e (new_ast0 IDENTIFIER x)))
| g_inc ts e a : G GPost ts (OE e) -> G GPost (ts ++ [(PLUS_PLUS, a)]) (OE (new_ast1 PLUS_PLUS_POST e))
| g_dec ts e a : G GPost ts (OE e) -> G GPost (ts ++ [(MINUS_MINUS, a)]) (OE (new_ast1 MINUS_MINUS_POST e))
| g_arg1 ts e : G GAssign ts (OE e) -> G GArgs ts (OE (new_ast2 LIST e (Raw 0)))
| g_args ts e a ts2 e2 : G GAssign ts (OE e) -> G GArgs ts2 (OE e2) -> G GArgs (ts ++ (COMMA, a) :: ts2) (OE (new_ast2 LIST e e2))
(* 6.5.3 unary operators *)
| g_unary ts o : G GPost ts o -> G GUnary ts o
| g_preinc a ts e : G GUnary ts (OE e) -> G GUnary ((PLUS_PLUS, a) :: ts) (OE (new_ast1 PLUS_PLUS_PRE e))
| g_predec a ts e : G GUnary ts (OE e) -> G GUnary ((MINUS_MINUS, a) :: ts) (OE (new_ast1 MINUS_MINUS_PRE e))
| g_unop t a ts e : In t [AMP; STAR; PLUS; MINUS; TILDE; EXCL] -> G GCast ts (OE e) -> G GUnary ((t, a) :: ts) (OE (new_ast1 t e))
| g_sizeof a ts e : G GUnary ts (OE e) -> G GUnary ((SIZEOF_KW, a) :: ts) (OE (new_ast1 SIZEOF_KW e))
| g_sizeof_type a b ts c t : G GType ts (OE t) -> G GUnary ((SIZEOF_KW, a) :: (LPAR, b) :: ts ++ [(RPAR, c)]) (OE (new_ast1 SIZEOF_KW t))
(* 6.5.4 casts *)
| g_cast0 ts o : G GUnary ts o -> G GCast ts o
| g_cast a ts b t ts2 e : G GType ts (OE t) -> G GCast ts2 (OE e) -> G GCast ((LPAR, a) :: ts ++ (RPAR, b) :: ts2) (OE (new_ast2 CAST t e))
(* 6.5.5 - 6.5.14: level k+1 is  level-k | level-(k+1) op level-k *)
| g_bin0 ts o : G GCast ts o -> G (GBin 0) ts o
| g_binS k ts o : G (GBin k) ts o -> G (GBin (S k)) ts o
| g_bin k ts e t a ts2 e2 : (k < 10)%nat -> G (GBin (S k)) ts (OE e) -> In t (binops (S k)) -> G (GBin k) ts2 (OE e2) ->
    G (GBin (S k)) (ts ++ (t, a) :: ts2) (OE (new_ast2 t e e2))
(* 6.5.15 *)
| g_cond0 ts o : G (GBin 10) ts o -> G GCond ts o
| g_cond ts e a ts1 e1 b ts2 e2 : G (GBin 10) ts (OE e) -> G GExpr ts1 (OE e1) -> G GCond ts2 (OE e2) ->
    G GCond (ts ++ (QUEST, a) :: ts1 ++ (COLON, b) :: ts2) (OE (new_ast3 QUEST e e1 e2))
(* 6.5.16 *)
| g_assign0 ts o : G GCond ts o -> G GAssign ts o
| g_assign ts e t a ts2 e2 : G GUnary ts (OE e) -> In t assign_ops -> G GAssign ts2 (OE e2) ->
    G GAssign (ts ++ (t, a) :: ts2) (OE (new_ast2 t e e2))
(* 6.5.17 *)
| g_expr0 ts o : G GAssign ts o -> G GExpr ts o
| g_comma ts e a ts2 e2 : G GAssign ts (OE e) -> G GExpr ts2 (OE e2) -> G GExpr (ts ++ (COMMA, a) :: ts2) (OE (new_ast2 COMMA e e2))
(* 6.7.7 type names *)
| g_type ts b ts2 ls : specs ts b -> G (GDeclr true) ts2 (OD (Raw 0) ls) -> okty ls b ->
    G GType (ts ++ ts2) (OE (decl_node (Raw 0) ls b))
(* 6.7.6 declarators: the layers go from the name outwards to the specifier *)
| g_ptr abs a ts n ls : G (GDeclr abs) ts (OD n ls) -> G (GDeclr abs) ((STAR, a) :: ts) (OD n (ls ++ [LPtr false]))
| g_cptr abs a b ts n ls : G (GDeclr abs) ts (OD n ls) -> G (GDeclr abs) ((STAR, a) :: (CONST_KW, b) :: ts) (OD n (ls ++ [LPtr true]))
| g_direct abs ts n ls : G (GDirect abs) ts (OD n ls) -> G (GDeclr abs) ts (OD n ls)
| g_name abs x : G (GDirect abs) [(IDENTIFIER, x)] (OD (new_ast0 IDENTIFIER x) [])
| g_none : G (GDirect true) [] (OD (Raw 0) [])
| g_dparen abs a ts b n ls : G (GDeclr abs) ts (OD n ls) -> ts <> [] (* R1 *) ->
    G (GDirect abs) ((LPAR, a) :: ts ++ [(RPAR, b)]) (OD n ls)
| g_array abs ts n ls a ts2 e z b : G (GDirect abs) ts (OD n ls) -> G GAssign ts2 (OE e) -> eval_constant false e = Some z ->
    G (GDirect abs) (ts ++ (LBRACK, a) :: ts2 ++ [(RBRACK, b)]) (OD n (ls ++ [LArr z]))
| g_array0 abs ts n ls a b : G (GDirect abs) ts (OD n ls) -> G (GDirect abs) (ts ++ [(LBRACK, a); (RBRACK, b)]) (OD n (ls ++ [LArr 0]))
| g_fun abs ts n ls a ts2 ps v b : G (GDirect abs) ts (OD n ls) -> ts <> [] (* R2 *) -> G GParams ts2 (OL ps v) ->
    G (GDirect abs) (ts ++ (LPAR, a) :: ts2 ++ [(RPAR, b)]) (OD n (ls ++ [LFun (list_node ps) v]))
| g_param ts b ts2 n ls : specs ts b -> G (GDeclr true) ts2 (OD n ls) -> okty ls b -> get_op (wrap ls b) <> VOID_KW ->
    ~ has ELLIPSIS ts2 (* R3 *) -> G GParam (ts ++ ts2) (OE (decl_node n ls b))
| g_plist1 ts d : G GParam ts (OE d) -> G GPList ts (OL [d] false)
| g_plist_var ts d a b : G GParam ts (OE d) -> G GPList (ts ++ [(COMMA, a); (ELLIPSIS, b)]) (OL [d] true)
| g_plist ts d a ts2 l v : G GParam ts (OE d) -> G GPList ts2 (OL l v) -> G GPList (ts ++ (COMMA, a) :: ts2) (OL (d :: l) v)
| g_params0 : G GParams [] (OL [] false)
| g_params_void a : G GParams [(VOID_KW, a)] (OL [] false)
| g_params ts l v : G GPList ts (OL l v) -> G GParams ts (OL l v).
End Grammar.
