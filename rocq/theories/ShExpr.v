(** * Expressions compiled to shell arithmetic (sh.c)

    Model of comp_rvalue_go, comp_lvalue, comp_lvalue_address and wrap_if_needed (sh.c:1163-1510) on
    expressions without function calls and string literals, in the two value contexts: inside an
    arithmetic expansion ([arith] = true, RVALUE_CTX_ARITH_EXPANSION) and outside ([arith] = false,
    RVALUE_CTX_BASE).  Followed by the C meaning of those expressions ([cev]), a specification.

    Simplifications: texts are lists of items ([ShArith.item]) rather than nodes of the text pool
    (that printing the pool gives the concatenation is C18); the node kinds of pnut's tree that this
    fragment uses are the constructors of [xe]; sizeof of the scalar types is one constructor;
    handle_side_effects is the identity on this fragment, apart from giving && and || two empty
    lists (sh.c:1010-1025); the error exits return the empty text, they are reached only outside
    the fragment of the theorems; unary plus, casts and parentheses are nodes here as in pnut. *)
From Coq Require Import ZArith List Lia Bool.
From Verif Require Import Base Output Ast Parse ShArith.
Import ListNotations.
Open Scope Z_scope.

(* [XBin op]: the operators of [binops], including the logical ones, with pnut's token numbers *)
Inductive xe :=
| XInt (n : Z) | XHex (n : Z) | XOct (n : Z) | XChr (c : Z) | XVar (x : nat)
| XDeref (e : xe) | XIdx (a b : xe) | XMem (e : xe) (k : nat)
| XPar (e : xe) | XPlus (e : xe) | XCast (e : xe)
| XUn (op : Z) (e : xe)                 (* - ~ ! *)
| XPre (inc : bool) (e : xe) | XPost (inc : bool) (e : xe)
| XSize1 | XSizeS (k : nat) | XAddr (e : xe)
| XBin (op : Z) (a b : xe) | XComma (a b : xe) | XAsg (op : Z) (a b : xe) | XCond (c a b : xe).

Definition chs (l : list Z) : list item := map Ch l.

(** sh.c:1163 [is_associative_operator]. *)
Definition is_associative_operator (op : Z) : bool :=
  (op =? PLUS) || (op =? STAR) || (op =? AMP) || (op =? BAR) || (op =? CARET)
  || (op =? EQ_EQ) || (op =? AMP_AMP) || (op =? BAR_BAR).

(** sh.c:1172 [wrap_if_needed], for the two contexts [arith] = true / false. *)
Definition wrap_if_needed (parens_otherwise arith : bool) (code : list item) (outer_op inner_op : Z) : list item :=
  if arith then
    if parens_otherwise && negb (outer_op =? 0) && negb (outer_op =? EQ)
       && (negb (is_associative_operator inner_op) || negb (inner_op =? outer_op))
    then chs [40] ++ code ++ chs [41]
    else code
  else [Ar code].

(** sh.c:798 [op_to_str]: the operator between two spaces. *)
Definition op_chars (op : Z) : list Z :=
  if op <? 256 then [op]
  else if op =? AMP_AMP then [38; 38] else if op =? AMP_EQ then [38; 61] else if op =? BAR_BAR then [124; 124]
  else if op =? BAR_EQ then [124; 61] else if op =? CARET_EQ then [94; 61] else if op =? EQ_EQ then [61; 61]
  else if op =? GT_EQ then [62; 61] else if op =? LSHIFT_EQ then [60; 60; 61] else if op =? LT_EQ then [60; 61]
  else if op =? LSHIFT then [60; 60] else if op =? MINUS_EQ then [45; 61] else if op =? EXCL_EQ then [33; 61]
  else if op =? PERCENT_EQ then [37; 61] else if op =? PLUS_EQ then [43; 61] else if op =? RSHIFT_EQ then [62; 62; 61]
  else if op =? RSHIFT then [62; 62] else if op =? SLASH_EQ then [47; 61] else if op =? STAR_EQ then [42; 61]
  else [].
Definition op_to_str (op : Z) : list item := chs ([32] ++ op_chars op ++ [32]).

(** sh.c:89 [wrap_int] and its kin, printed by print_text (sh.c:313-321). *)
Definition omit (o : option (list Z)) : list Z := match o with Some l => l | None => [] end.
Definition wrap_int (n : Z) : list item := chs (omit (putint n)).
Definition wrap_hex (n : Z) : list item := chs ([48; 120] ++ omit (puthex_unsigned 9 n)).
Definition wrap_oct (n : Z) : list item := chs ([48] ++ omit (putoct_unsigned 12 n)).

(** sh.c:840 [character_ident]. *)
Definition character_ident (c : Z) : name :=
  [95; 95] ++
  (if ((65 <=? c) && (c <=? 90)) || ((97 <=? c) && (c <=? 122)) || ((48 <=? c) && (c <=? 57)) then [c]
   else if c =? 0 then [78;85;76] else if c =? 10 then [78;69;87;76;73;78;69]
   else if c =? 32 then [83;80;65;67;69] else if c =? 33 then [69;88;67;76]
   else if c =? 34 then [68;81;85;79;84;69] else if c =? 35 then [83;72;65;82;80]
   else if c =? 36 then [68;79;76;76;65;82] else if c =? 37 then [80;69;82;67;69;78;84]
   else if c =? 38 then [65;77;80] else if c =? 39 then [81;85;79;84;69]
   else if c =? 40 then [76;80;65;82;69;78] else if c =? 41 then [82;80;65;82;69;78]
   else if c =? 42 then [83;84;65;82] else if c =? 43 then [80;76;85;83]
   else if c =? 44 then [67;79;77;77;65] else if c =? 45 then [77;73;78;85;83]
   else if c =? 46 then [80;69;82;73;79;68] else if c =? 47 then [83;76;65;83;72]
   else if c =? 58 then [67;79;76;79;78] else if c =? 59 then [83;69;77;73;67;79;76;79;78]
   else if c =? 60 then [76;84] else if c =? 61 then [69;81] else if c =? 62 then [71;84]
   else if c =? 63 then [81;85;69;83;84;73;79;78] else if c =? 64 then [65;84]
   else if c =? 94 then [67;65;82;69;84] else if c =? 91 then [76;66;82;65;67;75]
   else if c =? 92 then [66;65;67;75;83;76;65;83;72] else if c =? 93 then [82;66;82;65;67;75]
   else if c =? 95 then [85;78;68;69;82;83;67;79;82;69] else if c =? 96 then [66;65;67;75;84;73;67;75]
   else if c =? 123 then [76;66;82;65;67;69] else if c =? 124 then [66;65;82]
   else if c =? 125 then [82;66;82;65;67;69] else if c =? 126 then [84;73;76;68;69]
   else if c =? 7 then [65;76;65;82;77] else if c =? 8 then [66;65;67;75;83;80;65;67;69]
   else if c =? 12 then [80;65;71;69] else if c =? 13 then [82;69;84]
   else if c =? 9 then [84;65;66] else if c =? 11 then [86;84;65;66] else [])
  ++ [95; 95].

Section Emit.
(* the shell names of the C variables, structure members and structure sizes: sh.c:500-530
   [struct_member_var], [struct_sizeof_var], [env_var] *)
Variables (vn mn zn : nat -> name).

(** sh.c:1204 [comp_rvalue_go] (contexts BASE and ARITH_EXPANSION), 1480 [comp_lvalue],
    1440 [comp_lvalue_address].  comp_rvalue (sh.c:1390) is comp_rvalue_go with outer_op 0 here. *)
Fixpoint comp_rvalue_go (e : xe) (arith : bool) (outer_op : Z) {struct e} : list item :=
  match e with
  | XInt n => wrap_int n
  | XHex n => wrap_if_needed false arith (wrap_hex n) outer_op INTEGER_HEX
  | XOct n => wrap_if_needed false arith (wrap_oct n) outer_op INTEGER_OCT
  | XChr c => if arith then chs (character_ident c) else [Pv (character_ident c)]
  | XVar x => if arith then chs (vn x) else [Pv (vn x)]
  | XDeref e => wrap_if_needed false arith (chs [95] ++ comp_rvalue_go e false STAR) outer_op STAR
  | XPlus e => comp_rvalue_go e arith outer_op
  | XPar e => comp_rvalue_go e arith outer_op
  | XUn op e =>
      match e with
      | XInt n => wrap_int (- n)
      | _ => wrap_if_needed false arith (chs [op] ++ comp_rvalue_go e true op) outer_op op
      end
  | XPre inc e =>
      wrap_if_needed true arith (comp_lvalue e ++ chs (if inc then [32; 43; 61; 32; 49] else [32; 45; 61; 32; 49]))
        outer_op (if inc then PLUS_PLUS_PRE else MINUS_MINUS_PRE)
  | XPost inc e =>
      wrap_if_needed false arith
        (chs [40] ++ comp_lvalue e ++
         chs (if inc then [32; 43; 61; 32; 49; 41; 32; 45; 32; 49] else [32; 45; 61; 32; 49; 41; 32; 43; 32; 49]))
        outer_op (if inc then MINUS else PLUS)
  | XSize1 => wrap_int 1
  | XSizeS k => wrap_if_needed false arith (chs (zn k)) outer_op SIZEOF_KW
  | XAddr e => wrap_if_needed false arith (comp_lvalue_address e) outer_op AMP
  | XBin op a b =>
      wrap_if_needed true arith (comp_rvalue_go a true op ++ op_to_str op ++ comp_rvalue_go b true op) outer_op op
  | XComma a b =>
      wrap_if_needed true arith (comp_rvalue_go a true COMMA ++ op_to_str COMMA ++ comp_rvalue_go b true COMMA) outer_op COMMA
  | XAsg op a b =>
      wrap_if_needed true arith (comp_lvalue a ++ op_to_str op ++ comp_rvalue_go b true op) outer_op op
  | XIdx a b =>
      wrap_if_needed false arith
        (chs [95] ++ [Ar (comp_rvalue_go a true PLUS ++ chs [32; 43; 32] ++ comp_rvalue_go b true PLUS)]) outer_op LBRACK
  | XMem a k =>
      wrap_if_needed false arith
        (chs [95] ++ [Ar (comp_rvalue_go a true ARROW ++ chs [32; 43; 32] ++ chs (mn k))]) outer_op ARROW
  | XCast e => comp_rvalue_go e arith CAST
  | XCond c a b =>
      wrap_if_needed true arith
        (comp_rvalue_go c true QUEST ++ op_to_str QUEST ++ comp_rvalue_go a true QUEST ++ chs [58; 32]
         ++ comp_rvalue_go b true QUEST) outer_op QUEST
  end
with comp_lvalue (e : xe) {struct e} : list item :=
  match e with
  | XVar x => chs (vn x)
  | XIdx a b => chs [95] ++ [Ar (comp_rvalue_go a true 0 ++ chs [32; 43; 32] ++ comp_rvalue_go b true 0)]
  | XDeref e => chs [95] ++ comp_rvalue_go e false 0
  | XMem a k => chs [95] ++ [Ar (comp_rvalue_go a true 0 ++ chs [32; 43; 32] ++ chs (mn k))]
  | XCast e => comp_lvalue e
  | XPar e => comp_lvalue_address e
  | _ => []
  end
with comp_lvalue_address (e : xe) {struct e} : list item :=
  match e with
  | XIdx a b => comp_rvalue_go a true 0 ++ chs [32; 43; 32] ++ comp_rvalue_go b true 0
  | XDeref e => comp_rvalue_go e false 0
  | XMem a k => comp_rvalue_go a true 0 ++ chs [32; 43; 32] ++ chs (mn k)
  | XCast e => comp_lvalue_address e
  | XPar e => comp_lvalue_address e
  | _ => []
  end.
End Emit.
