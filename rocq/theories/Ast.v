(** * Tokens and syntax trees (pnut.c:162-258, 470-570)

    A node of the C program's heap is a tag and children; storage is shown faithful in [Store].
    Here a node is a value: [Node op val kids].  [new_ast0 op v] is [Node op v []]; nodes with
    children have val 0.  [Raw z] is a plain integer stored where a child is expected (0 = none). *)
From Coq Require Import ZArith List Lia Bool.
From Verif Require Import Base.
Import ListNotations.
Open Scope Z_scope.

Inductive ast := Raw (z : Z) | Node (op val : Z) (kids : list ast).
Definition Null := Raw 0.

(** Better induction principle (kids are a nested list). *)
Fixpoint ast_ind' (P : ast -> Prop) (HR : forall z, P (Raw z))
  (HN : forall op v kids, Forall P kids -> P (Node op v kids)) (t : ast) : P t :=
  match t with
  | Raw z => HR z
  | Node op v kids =>
      HN op v kids ((fix go (l : list ast) : Forall P l :=
        match l with
        | [] => Forall_nil P
        | x :: r => Forall_cons x (ast_ind' P HR HN x) (go r)
        end) kids)
  end.

(** pnut.c:345 [get_op], 349 [get_nb_children], 452 [get_val], 460 [get_child]. *)
Definition get_op (t : ast) : Z := match t with Node op _ _ => op | Raw _ => 0 end.
Definition get_val (t : ast) : Z := match t with Node _ v _ => v | Raw z => z end.
Definition get_kids (t : ast) : list ast := match t with Node _ _ k => k | Raw _ => [] end.

(** pnut.c:477-530. *)
Definition new_ast0 (op v : Z) : ast := Node op v [].
Definition new_ast1 (op : Z) (a : ast) : ast := Node op 0 [a].
Definition new_ast2 (op : Z) (a b : ast) : ast := Node op 0 [a; b].
Definition new_ast3 (op : Z) (a b c : ast) : ast := Node op 0 [a; b; c].
Definition new_ast4 (op : Z) (a b c d : ast) : ast := Node op 0 [a; b; c; d].

(** Token numbers, pnut.c:162-257. *)
Definition AUTO_KW := 300.      Definition BREAK_KW := 301.    Definition CASE_KW := 302.
Definition CHAR_KW := 303.      Definition CONST_KW := 304.    Definition CONTINUE_KW := 305.
Definition DEFAULT_KW := 306.   Definition DO_KW := 307.       Definition DOUBLE_KW := 308.
Definition ELSE_KW := 309.      Definition ENUM_KW := 310.     Definition EXTERN_KW := 311.
Definition FLOAT_KW := 312.     Definition FOR_KW := 313.      Definition GOTO_KW := 314.
Definition IF_KW := 315.        Definition INLINE_KW := 316.   Definition INT_KW := 317.
Definition LONG_KW := 318.      Definition REGISTER_KW := 319. Definition RETURN_KW := 320.
Definition SHORT_KW := 321.     Definition SIGNED_KW := 322.   Definition SIZEOF_KW := 323.
Definition STATIC_KW := 324.    Definition STRUCT_KW := 325.   Definition SWITCH_KW := 326.
Definition TYPEDEF_KW := 327.   Definition UNION_KW := 328.    Definition UNSIGNED_KW := 329.
Definition VOID_KW := 330.      Definition VOLATILE_KW := 331. Definition WHILE_KW := 332.
Definition INTEGER := 401.      Definition INTEGER_HEX := 402. Definition INTEGER_OCT := 403.
Definition INTEGER_L := 404.    Definition INTEGER_LL := 405.  Definition INTEGER_U := 406.
Definition INTEGER_UL := 407.   Definition INTEGER_ULL := 408.
Definition CHARACTER := 410.    Definition STRING := 411.
Definition AMP_AMP := 450.      Definition AMP_EQ := 451.      Definition ARROW := 452.
Definition BAR_BAR := 453.      Definition BAR_EQ := 454.      Definition CARET_EQ := 455.
Definition EQ_EQ := 456.        Definition GT_EQ := 457.       Definition LSHIFT_EQ := 458.
Definition LSHIFT := 459.       Definition LT_EQ := 460.       Definition MINUS_EQ := 461.
Definition MINUS_MINUS := 462.  Definition EXCL_EQ := 463.     Definition PERCENT_EQ := 464.
Definition PLUS_EQ := 465.      Definition PLUS_PLUS := 466.   Definition RSHIFT_EQ := 467.
Definition RSHIFT := 468.       Definition SLASH_EQ := 469.    Definition STAR_EQ := 470.
Definition HASH_HASH := 471.    Definition PLUS_PLUS_PRE := 472. Definition MINUS_MINUS_PRE := 473.
Definition PLUS_PLUS_POST := 474. Definition MINUS_MINUS_POST := 475. Definition ELLIPSIS := 476.
Definition PARENS := 477.       Definition INITIALIZER_LIST := 478. Definition DECL := 479.
Definition DECLS := 480.        Definition FUN_DECL := 481.    Definition CAST := 482.
Definition MACRO_ARG := 499.    Definition IDENTIFIER := 500.  Definition TYPE := 501.
Definition MACRO := 502.        Definition LIST := 600.

(** Single-character tokens. *)
Definition LPAR := 40.   Definition RPAR := 41.   Definition STAR := 42.   Definition PLUS := 43.
Definition COMMA := 44.  Definition MINUS := 45.  Definition DOT := 46.    Definition SLASHC := 47.
Definition COLON := 58.  Definition SEMI := 59.   Definition LT := 60.     Definition EQ := 61.
Definition GT := 62.     Definition QUEST := 63.  Definition LBRACK := 91. Definition RBRACK := 93.
Definition CARET := 94.  Definition LBRACE := 123. Definition BAR := 124.  Definition RBRACE := 125.
Definition TILDE := 126. Definition EXCL := 33.   Definition PERCENT := 37. Definition AMP := 38.
Definition EOFt := -1.

Definition is_integer_tok (t : Z) : bool :=
  (t =? INTEGER) || (t =? INTEGER_HEX) || (t =? INTEGER_OCT) || (t =? INTEGER_L) ||
  (t =? INTEGER_LL) || (t =? INTEGER_U) || (t =? INTEGER_UL) || (t =? INTEGER_ULL).
