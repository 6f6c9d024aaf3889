(** * The expression, declarator and type-name parser (pnut.c 2558-3105, 3255-3752)

    The parser reads tokens through the globals [tok] and [val]; here the input is the list of
    remaining tokens, its head being the current token, [[]] the end of file.  An error (parse_error,
    fatal_error, expect_tok) is [None].  The recursive descent is one function over a nonterminal,
    by fuel; [None] is also returned when the fuel runs out, and [Parses] in PropParse.v is
    acceptance with enough fuel.  Not modelled here: struct, union and enum bodies inside type
    names (a brace after the tag stops the model with [None]), and the #if mode (skip_newlines false,
    see Cond.v). *)
From Coq Require Import ZArith List Bool Lia.
From Verif Require Import Base Ast EvalConst.
Import ListNotations.
Open Scope Z_scope.

Notation token := (Z * Z)%type.                    (* tok, val *)
Definition tk (ts : list token) : Z := match ts with [] => EOFt | (t, _) :: _ => t end.

(* pnut.c 2605-2621 is_type_starter *)
Definition is_type_starter (t : Z) : bool :=
  existsb (Z.eqb t) [INT_KW; CHAR_KW; SHORT_KW; LONG_KW; VOID_KW; FLOAT_KW; DOUBLE_KW; SIGNED_KW; UNSIGNED_KW;
                     TYPE; CONST_KW; VOLATILE_KW; ENUM_KW; STRUCT_KW; UNION_KW;
                     TYPEDEF_KW; STATIC_KW; AUTO_KW; REGISTER_KW; EXTERN_KW; INLINE_KW].

(* pnut.c 2558 MK_TYPE_SPECIFIER *)
Definition MK_TYPE_SPECIFIER (t : Z) : Z := Z.shiftl 1 (t - AUTO_KW).

(* set_val / set_child(.,0,.) or-ing bits into the first slot of a node *)
Definition or_slot0 (n : ast) (bits : Z) : ast :=
  match n with
  | Node op v [] => Node op (Z.lor v bits) []
  | Node op v (k :: ks) => Node op v (Raw (Z.lor (get_val k) bits) :: ks)
  | Raw z => Raw z
  end.

Section Specifiers.
Variable sh : bool.                        (* the shell build has no unsigned *)
Variable typedefs : Z -> option ast.       (* heap[val + 3] of a TYPE token *)

(* pnut.c 2770-2830 parse_type_specifier; the first component is 0 = None *)
Fixpoint parse_type_specifier (ts : list token) : option ast * list token :=
  match ts with
  | [] => (None, ts)
  | (t, _) :: r =>
    if (t =? CHAR_KW) || (t =? INT_KW) || (t =? VOID_KW) then (Some (new_ast0 t 0), r)
    else if t =? SHORT_KW then (Some (new_ast0 SHORT_KW 0), if tk r =? INT_KW then tl r else r)
    else if t =? SIGNED_KW then
      match parse_type_specifier r with
      | (None, r') => (Some (new_ast0 INT_KW 0), r')
      | p => p
      end
    else if (t =? UNSIGNED_KW) && negb sh then
      match parse_type_specifier r with
      | (None, r') => (Some (new_ast0 INT_KW (MK_TYPE_SPECIFIER UNSIGNED_KW)), r')
      | (Some s, r') => (Some (or_slot0 s (MK_TYPE_SPECIFIER UNSIGNED_KW)), r')
      end
    else if t =? LONG_KW then
      if tk r =? LONG_KW then (Some (new_ast0 LONG_KW 0), let r2 := tl r in if tk r2 =? INT_KW then tl r2 else r2)
      else (Some (new_ast0 INT_KW 0), if tk r =? INT_KW then tl r else r)
    else (None, ts)
  end.

(* pnut.c 2839-2918 parse_declaration_specifiers(false): the loop, then the qualifiers.
   [sc]: the storage class seen, 0 if none. *)
Fixpoint specs_loop (fuel : nat) (ty : option ast) (q : Z) (sc : Z) (ts : list token) : option (option ast * Z * Z * list token) :=
  match fuel with
  | O => None
  | S f =>
    match ts with
    | [] => Some (ty, q, sc, ts)
    | (t, v) :: r =>
      if existsb (Z.eqb t) [AUTO_KW; REGISTER_KW; STATIC_KW; EXTERN_KW] then
        if negb (sc =? 0) then None else specs_loop f ty q t r
      else if t =? TYPEDEF_KW then None
      else if t =? INLINE_KW then specs_loop f ty q sc r
      else if (t =? CONST_KW) || (t =? VOLATILE_KW) then specs_loop f ty (Z.lor q (MK_TYPE_SPECIFIER t)) sc r
      else if existsb (Z.eqb t) [CHAR_KW; INT_KW; VOID_KW; SHORT_KW; SIGNED_KW; UNSIGNED_KW; LONG_KW; FLOAT_KW; DOUBLE_KW] then
        match ty with
        | Some _ => None
        | None => match parse_type_specifier ts with
                  | (Some s, r') => specs_loop f (Some s) q sc r'
                  | (None, _) => None
                  end
        end
      else if existsb (Z.eqb t) [STRUCT_KW; UNION_KW; ENUM_KW] then
        match ty with
        | Some _ => None
        | None =>
          (* pnut.c 2623-2640, 2699-2720 without a body *)
          let '(name, r') := match r with
                             | (t', v') :: r' => if (t' =? IDENTIFIER) || (t' =? TYPE) then (new_ast0 IDENTIFIER v', r') else (Raw 0, r)
                             | [] => (Raw 0, r)
                             end in
          if tk r' =? LBRACE then None
          else specs_loop f (Some (new_ast3 t (Raw 0) name (Raw 0))) q sc r'
        end
      else if t =? TYPE then
        match ty, typedefs v with
        | None, Some s => specs_loop f (Some s) q sc r
        | _, _ => None
        end
      else Some (ty, q, sc, ts)
    end
  end.
(* the type, and the value left in glo_specifier_storage_class *)
Definition parse_declaration_specifiers (ts : list token) : option (ast * Z * list token) :=
  match specs_loop (S (length ts)) None 0 0 ts with
  | Some (Some s, q, sc, r) =>
    if q =? 0 then Some (s, sc, r)
    else if (get_op s =? LBRACK) || (get_op s =? LPAR) then None
    else Some (or_slot0 s q, sc, r)
  | _ => None
  end.
End Specifiers.

(* ---- declarators ---- *)
(* One layer of a declarator's type: '*' (pnut.c 2579), '[' (3077), '(' (3082).  A declared type is a
   list of layers, outermost first, around the specifier; a reference to the node holding the inner
   type (parse_declarator_parent_type_parent) is the number of layers outside that inner type. *)
Inductive layer := LPtr (const : bool) | LArr (n : Z) | LFun (params : ast) (variadic : bool).
Definition wrap1 (l : layer) (t : ast) : ast :=
  match l with
  | LPtr c => new_ast2 STAR (Raw (if c then MK_TYPE_SPECIFIER CONST_KW else 0)) t
  | LArr n => new_ast2 LBRACK t (Raw n)
  | LFun ps v => new_ast3 LPAR t ps (Raw (if v then 1 else 0))
  end.
Definition wrap (ls : list layer) (t : ast) : ast := fold_right wrap1 t ls.
Definition decl_node (name : ast) (ls : list layer) (base : ast) : ast := new_ast3 DECL name (wrap ls base) (Raw 0).
Definition insert_at (k : nat) (l : layer) (ls : list layer) : list layer := firstn k ls ++ l :: skipn k ls.
Fixpoint list_node (l : list ast) : ast := match l with [] => Raw 0 | a :: r => new_ast2 LIST a (list_node r) end.

(* the binary levels: parse_multiplicative_expression (3498) ... parse_logical_OR_expression (3652) *)
Definition binops (k : nat) : list Z :=
  match k with
  | 1%nat => [STAR; SLASHC; PERCENT]
  | 2%nat => [PLUS; MINUS]
  | 3%nat => [LSHIFT; RSHIFT]
  | 4%nat => [LT; GT; LT_EQ; GT_EQ]
  | 5%nat => [EQ_EQ; EXCL_EQ]
  | 6%nat => [AMP]
  | 7%nat => [CARET]
  | 8%nat => [BAR]
  | 9%nat => [AMP_AMP]
  | 10%nat => [BAR_BAR]
  | _ => []
  end.
(* pnut.c 3692-3695 *)
Definition assign_ops : list Z :=
  [EQ; PLUS_EQ; MINUS_EQ; STAR_EQ; SLASH_EQ; PERCENT_EQ; LSHIFT_EQ; RSHIFT_EQ; AMP_EQ; CARET_EQ; BAR_EQ].
(* pnut.c 3272-3279 *)
Definition is_leaf (t : Z) : bool := (t =? IDENTIFIER) || (t =? CHARACTER) || is_integer_tok t.

Inductive nt :=
| NComma | NAssign | NCond
| NBin (k : nat)                    (* level k expression; level 0 is parse_cast_expression *)
| NLoop (k : nat) (r : ast)         (* the while loop of level k with its result so far *)
| NCast | NUnary
| NPost (r : ast)                   (* the while loop of parse_postfix_expression *)
| NPrim | NParen                    (* NParen: parse_parenthesized_expression(true) *)
| NArgs
| NDeclr (abs : bool) (outer : list layer) (base : ast)
| NSuffix (void : bool) (name : ast) (ls : list layer) (pos : nat) (base : ast)
| NParams (acc : list ast).

(* What a nonterminal yields: an expression (or list), or a declarator: name, layers, position *)
Inductive res := RE (e : ast) | RD (name : ast) (ls : list layer) (pos : nat) | RL (l : list ast).

(* state: remaining tokens, and the globals parse_param_list_is_variadic and glo_specifier_storage_class *)
Definition glo : Type := bool * Z.
Definition st : Type := list token * glo.

Definition ebind (r : option (res * st)) (k : ast -> list token -> glo -> option (res * st)) : option (res * st) :=
  match r with Some (RE e, (ts, v)) => k e ts v | _ => None end.
Definition dbind (r : option (res * st)) (k : ast -> list layer -> nat -> list token -> glo -> option (res * st)) : option (res * st) :=
  match r with Some (RD n ls p, (ts, v)) => k n ls p ts v | _ => None end.
Definition lbind (r : option (res * st)) (k : list ast -> list token -> glo -> option (res * st)) : option (res * st) :=
  match r with Some (RL l, (ts, v)) => k l ts v | _ => None end.
Definition expect (t : Z) (ts : list token) (k : list token -> option (res * st)) : option (res * st) :=
  if (tk ts =? t) && negb (t =? EOFt) then k (tl ts) else None.

Section Parser.
Variable sh : bool.
Variable typedefs : Z -> option ast.
(* the pool: contiguous string literals are joined (pnut.c 3288-3306); [join] is the string object of
   the concatenation of two string objects (Store.v) *)
Variable join : Z -> Z -> Z.

Fixpoint strings (ts : list token) (acc : Z) : Z * list token :=
  match ts with
  | (t, v) :: r => if t =? STRING then strings r (join acc v) else (acc, ts)
  | [] => (acc, ts)
  end.

(* One call: the body of the function of nonterminal [n]; [rec] stands for the calls it makes. *)
Definition PB (rec : nt -> list token -> glo -> option (res * st)) (n : nt) (ts : list token) (v : glo) : option (res * st) :=
    match n with
    (* 3708 *)
    | NComma =>
      ebind (rec NAssign ts v) (fun e ts v =>
      if tk ts =? COMMA then ebind (rec NComma (tl ts) v) (fun e2 ts v => Some (RE (new_ast2 COMMA e e2), (ts, v)))
      else Some (RE e, (ts, v)))
    (* 3687 *)
    | NAssign =>
      ebind (rec NCond ts v) (fun e ts v =>
      if existsb (Z.eqb (tk ts)) assign_ops then
        ebind (rec NAssign (tl ts) v) (fun e2 ts2 v => Some (RE (new_ast2 (tk ts) e e2), (ts2, v)))
      else Some (RE e, (ts, v)))
    (* 3668 *)
    | NCond =>
      ebind (rec (NBin 10) ts v) (fun e ts v =>
      if tk ts =? QUEST then
        ebind (rec NComma (tl ts) v) (fun e1 ts v =>
        expect COLON ts (fun ts =>
        ebind (rec NCond ts v) (fun e2 ts v => Some (RE (new_ast3 QUEST e e1 e2), (ts, v)))))
      else Some (RE e, (ts, v)))
    (* 3498-3666 *)
    | NBin O => rec NCast ts v
    | NBin (S k) => ebind (rec (NBin k) ts v) (fun e ts v => rec (NLoop (S k) e) ts v)
    | NLoop k r =>
      if existsb (Z.eqb (tk ts)) (binops k) then
        ebind (rec (NBin (Nat.pred k)) (tl ts) v) (fun e ts2 v => rec (NLoop k (new_ast2 (tk ts) r e)) ts2 v)
      else Some (RE r, (ts, v))
    (* 3464 *)
    | NCast =>
      if tk ts =? LPAR then
        if is_type_starter (tk (tl ts)) then
          match parse_declaration_specifiers sh typedefs (tl ts) with
          | None => None
          | Some (base, sc, ts) =>
            dbind (rec (NDeclr true [] base) ts (fst v, sc)) (fun name ls _ ts v =>
            expect RPAR ts (fun ts =>
            ebind (rec NCast ts v) (fun e ts v => Some (RE (new_ast2 CAST (decl_node name ls base) e), (ts, v)))))
          end
        else ebind (rec NParen (tl ts) v) (fun e ts v => rec (NPost e) ts v)
      else rec NUnary ts v
    (* 3400 *)
    | NUnary =>
      if tk ts =? PLUS_PLUS then ebind (rec NUnary (tl ts) v) (fun e ts v => Some (RE (new_ast1 PLUS_PLUS_PRE e), (ts, v)))
      else if tk ts =? MINUS_MINUS then ebind (rec NUnary (tl ts) v) (fun e ts v => Some (RE (new_ast1 MINUS_MINUS_PRE e), (ts, v)))
      else if existsb (Z.eqb (tk ts)) [AMP; STAR; PLUS; MINUS; TILDE; EXCL] then
        ebind (rec NCast (tl ts) v) (fun e ts2 v => Some (RE (new_ast1 (tk ts) e), (ts2, v)))
      else if tk ts =? SIZEOF_KW then
        let ts := tl ts in
        if tk ts =? LPAR then
          if is_type_starter (tk (tl ts)) then
            match parse_declaration_specifiers sh typedefs (tl ts) with
            | None => None
            | Some (base, sc, ts) =>
              dbind (rec (NDeclr true [] base) ts (fst v, sc)) (fun name ls _ ts v =>
              expect RPAR ts (fun ts => Some (RE (new_ast1 SIZEOF_KW (decl_node name ls base)), (ts, v))))
            end
          else ebind (rec NParen (tl ts) v) (fun e ts v =>
               ebind (rec (NPost e) ts v) (fun e ts v => Some (RE (new_ast1 SIZEOF_KW e), (ts, v))))
        else ebind (rec NUnary ts v) (fun e ts v => Some (RE (new_ast1 SIZEOF_KW e), (ts, v)))
      else ebind (rec NPrim ts v) (fun e ts v => rec (NPost e) ts v)
    (* 3322 *)
    | NPost r =>
      if tk ts =? LBRACK then
        ebind (rec NComma (tl ts) v) (fun e ts v => expect RBRACK ts (fun ts => rec (NPost (new_ast2 LBRACK r e)) ts v))
      else if tk ts =? LPAR then
        if tk (tl ts) =? RPAR then rec (NPost (new_ast2 LPAR r (Raw 0))) (tl (tl ts)) v
        else ebind (rec NArgs (tl ts) v) (fun e ts v => expect RPAR ts (fun ts => rec (NPost (new_ast2 LPAR r e)) ts v))
      else if tk ts =? DOT then
        match tl ts with
        | (t, x) :: ts' => if t =? IDENTIFIER then rec (NPost (new_ast2 DOT r (new_ast0 IDENTIFIER x))) ts' v else None
        | [] => None
        end
      else if tk ts =? ARROW then
        match tl ts with
        | (t, x) :: ts' => if t =? IDENTIFIER then rec (NPost (new_ast2 ARROW r (new_ast0 IDENTIFIER x))) ts' v else None
        | [] => None
        end
      else if tk ts =? PLUS_PLUS then rec (NPost (new_ast1 PLUS_PLUS_POST r)) (tl ts) v
      else if tk ts =? MINUS_MINUS then rec (NPost (new_ast1 MINUS_MINUS_POST r)) (tl ts) v
      else Some (RE r, (ts, v))
    (* 3270 *)
    | NPrim =>
      match ts with
      | [] => None
      | (t, x) :: r =>
        if is_leaf t then Some (RE (new_ast0 t x), (r, v))
        else if t =? STRING then let (s, r') := strings r x in Some (RE (new_ast0 STRING s), (r', v))
        else if t =? LPAR then rec NParen r v
        else None
      end
    (* 3255 *)
    | NParen => ebind (rec NComma ts v) (fun e ts v => expect RPAR ts (fun ts => Some (RE (new_ast1 PARENS e), (ts, v))))
    (* 3721 *)
    | NArgs =>
      ebind (rec NAssign ts v) (fun e ts v =>
      if tk ts =? COMMA then ebind (rec NArgs (tl ts) v) (fun e2 ts v => Some (RE (new_ast2 LIST e e2), (ts, v)))
      else Some (RE (new_ast2 LIST e (Raw 0)), (ts, v)))
    (* 3024-3104; [base] is the specifier, [outer] the layers of parent_type already around it *)
    | NDeclr abs outer base =>
      let void_of ls := match ls with [] => get_op base =? VOID_KW | _ => false end in
      match ts with
      | (t, x) :: r =>
        if t =? IDENTIFIER then rec (NSuffix (void_of outer) (new_ast0 IDENTIFIER x) outer 0 base) r v
        else if t =? STAR then
          let c := tk r =? CONST_KW in
          dbind (rec (NDeclr abs (LPtr c :: outer) base) (if c then tl r else r) v) (fun name ls _ ts v =>
          (* parent_type_parent is the new pointer node; no suffixes after a pointer declarator *)
          Some (RD name ls (length ls - length outer), (ts, v)))
        else if t =? LPAR then
          dbind (rec (NDeclr abs outer base) r v) (fun name ls p ts v =>
          expect RPAR ts (fun ts => rec (NSuffix (void_of ls) name ls p base) ts v))
        else if abs then rec (NSuffix (void_of outer) (Raw 0) outer 0 base) ts v
        else None
      | [] => if abs then rec (NSuffix (void_of outer) (Raw 0) outer 0 base) ts v else None
      end
    | NSuffix void name ls p base =>
      if tk ts =? LBRACK then
        if void then None
        else if tk (tl ts) =? RBRACK then rec (NSuffix false name (insert_at p (LArr 0) ls) (S p) base) (tl (tl ts)) v
        else ebind (rec NAssign (tl ts) v) (fun e ts v =>
             match eval_constant false e with
             | None => None
             | Some z => expect RBRACK ts (fun ts => rec (NSuffix false name (insert_at p (LArr z) ls) (S p) base) ts v)
             end)
      else if tk ts =? LPAR then
        lbind (rec (NParams []) (tl ts) (false, snd v)) (fun ps ts v =>
        rec (NSuffix false name (insert_at p (LFun (list_node ps) (fst v)) ls) (S p) base) ts v)
      else Some (RD name ls p, (ts, v))
    (* 2924-2967, after the opening parenthesis, which resets the variadic flag *)
    | NParams acc =>
      if (tk ts =? RPAR) || (match ts with [] => true | _ => false end) then expect RPAR ts (fun ts => Some (RL acc, (ts, v)))
      else if is_type_starter (tk ts) then
        match parse_declaration_specifiers sh typedefs ts with
        | None => None
        | Some (base, sc, ts) =>
          dbind (rec (NDeclr true [] base) ts (fst v, sc)) (fun name ls _ ts v =>
          if get_op (wrap ls base) =? VOID_KW then
            if (tk ts =? RPAR) && (match acc with [] => true | _ => false end) then expect RPAR ts (fun ts => Some (RL acc, (ts, v))) else None
          else rec (NParams (acc ++ [decl_node name ls base])) (if tk ts =? COMMA then tl ts else ts) v)
        end
      else match ts with
      | (t, x) :: r =>
        if t =? IDENTIFIER then
          rec (NParams (acc ++ [new_ast3 DECL (new_ast0 IDENTIFIER x) (new_ast0 INT_KW 0) (Raw 0)])) (if tk r =? COMMA then tl r else r) v
        else if t =? ELLIPSIS then
          match acc with [] => None | _ => expect RPAR r (fun ts => Some (RL acc, (ts, (true, snd v)))) end
        else None
      | [] => None
      end
    end.

Fixpoint P (fuel : nat) (n : nt) (ts : list token) (v : glo) : option (res * st) :=
  match fuel with
  | O => None
  | S f => PB (P f) n ts v
  end.
End Parser.
