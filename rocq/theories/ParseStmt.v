(** * The parser of declarations, statements and files (pnut.c 2623-2768, 2839-2918, 3106-3253, 3754-3926, 4105-4118)

    Continues Parse.v: the same tokens, the same fuel.  The state is the table of typedef names (heap[val + 2] = TYPE and
    heap[val + 3]), the remaining tokens and the two globals of Parse.v.  Adding a typedef name changes the kind of
    the identifiers read from then on ([cls]); the current token is then the semicolon, so nothing already read is
    affected.
    Simplifications: a typedef of a struct, union or enum in the shell build whose tag is not the typedef
    name is [None] (in the program it renames the tag or is an error, 3177-3182), and so is a typedef
    without declarator; the checks of 2742 and 2743-2747 (member of type void, flexible array) compare a node index with a
    token and never succeed, so they are left out; enumerators are evaluated after the list is read. *)
From Coq Require Import ZArith List Bool Lia.
From Verif Require Import Base Ast EvalConst Enum Parse.
Import ListNotations.
Open Scope Z_scope.

Definition tdm : Type := Z -> option ast.
(** The kind of an identifier token when it is read (pnut.c 2136-2140 with heap[val + 2]). *)
Definition cls (td : tdm) (t : token) : token :=
  if (fst t =? IDENTIFIER) || (fst t =? TYPE) then (match td (snd t) with Some _ => TYPE | None => IDENTIFIER end, snd t) else t.

Inductive snt :=
| SSpec (ty : option ast) (q sc : Z) (allow_typedef : bool)   (* the loop of parse_declaration_specifiers *)
| SBody (acc : list ast)                                      (* the member loop of parse_struct_or_union *)
| SMember (base : ast) (acc : list ast)                       (* its inner loop over declarators *)
| SEnum (acc : list (Z * option ast))                         (* the loop of parse_enum *)
| SInit | SInits (acc : list ast)                             (* parse_initializer, the loop of parse_initializer_list *)
| SDInit (for_typedef : bool) (base : ast)                    (* parse_declarator_and_initializer *)
| SDeclrs (for_typedef : bool) (base : ast) (acc : list ast)  (* the loop of parse_declarators *)
| SDecl (local : bool)                                        (* parse_declaration *)
| SStmt                                                       (* parse_statement *)
| SItems (acc : list ast)                                     (* the loop of parse_compound_statement *)
| SFile (acc : list ast).                                     (* the loop of main *)
Inductive sres := XA (a : ast) | XS (a : ast) (sc : Z) | XL (l : list ast) | XE (l : list (Z * option ast)).
Definition sst : Type := tdm * list token * glo.

Definition abind (r : option (sres * sst)) (k : ast -> sst -> option (sres * sst)) : option (sres * sst) :=
  match r with Some (XA a, s) => k a s | _ => None end.
Definition spbind (r : option (sres * sst)) (k : ast -> Z -> sst -> option (sres * sst)) : option (sres * sst) :=
  match r with Some (XS a sc, s) => k a sc s | _ => None end.
Definition libind (r : option (sres * sst)) (k : list ast -> sst -> option (sres * sst)) : option (sres * sst) :=
  match r with Some (XL l, s) => k l s | _ => None end.
Definition enbind (r : option (sres * sst)) (k : list (Z * option ast) -> sst -> option (sres * sst)) : option (sres * sst) :=
  match r with Some (XE l, s) => k l s | _ => None end.
(* an expression or a declarator read by the parser of Parse.v *)
Definition exbind (td : tdm) (r : option (res * st)) (k : ast -> sst -> option (sres * sst)) : option (sres * sst) :=
  match r with Some (RE e, (ts, v)) => k e (td, ts, v) | _ => None end.
Definition debind (td : tdm) (r : option (res * st)) (k : ast -> list layer -> sst -> option (sres * sst)) : option (sres * sst) :=
  match r with Some (RD n ls _, (ts, v)) => k n ls (td, ts, v) | _ => None end.
(* expect_tok (pnut.c 2531) *)
Definition sexpect (t : Z) (s : sst) (k : sst -> option (sres * sst)) : option (sres * sst) :=
  let '(td, ts, v) := s in if tk ts =? t then k (td, tl ts, v) else None.

Definition is_tag (t : Z) : bool := (t =? ENUM_KW) || (t =? STRUCT_KW) || (t =? UNION_KW).
(* pnut.c 3893-3921: the list of a compound statement *)
Fixpoint block (l : list ast) : ast := match l with [] => Raw 0 | a :: r => new_ast2 LBRACE a (block r) end.
Definition child (k : nat) (n : ast) : ast := nth k (get_kids n) (Raw 0).
Definition set_init (d i : ast) : ast := new_ast3 DECL (child 0 d) (child 1 d) i.
(* pnut.c 3193-3199: all parameters are named *)
Fixpoint named_params (n : ast) : bool :=
  match n with
  | Node _ _ [p; r] => negb (match child 0 p with Raw _ => true | _ => false end) && named_params r
  | _ => true
  end.
(* pnut.c 3168-3188 [add_typedef] *)
Definition add_typedef (sh : bool) (td : tdm) (d : ast) : option tdm :=
  let id := get_val (child 0 d) in
  let ty := child 1 d in
  if sh && is_tag (get_op ty) && negb (match child 1 ty with Raw _ => false | n => get_val n =? id end) then None
  else Some (fun x => if x =? id then Some ty else td x).
Fixpoint add_typedefs (sh : bool) (td : tdm) (l : list ast) : option tdm :=
  match l with
  | [] => Some td
  | d :: r => match add_typedef sh td d with Some td' => add_typedefs sh td' r | None => None end
  end.

Section Parser.
Variable sh : bool.
Variable join : Z -> Z -> Z.

(* the name after struct, union or enum (2634-2640, 2708-2714) *)
Definition tag_name (r : list token) : ast * list token :=
  match r with
  | (t', v') :: r' => if (t' =? IDENTIFIER) || (t' =? TYPE) then (new_ast0 IDENTIFIER v', r') else (Raw 0, r)
  | [] => (Raw 0, r)
  end.

(* One call: [ex] is the parser of Parse.v, [rec] the calls made. *)
Definition SB (ex : tdm -> nt -> list token -> glo -> option (res * st)) (rec : snt -> sst -> option (sres * sst))
  (n : snt) (s : sst) : option (sres * sst) :=
  let '(td, ts, v) := s in
  match n with
  (* 2839-2918 *)
  | SSpec ty q sc ad =>
    let stop := match ty with
                | None => None
                | Some b => if q =? 0 then Some (XS b sc, (td, ts, (fst v, sc)))
                            else if (get_op b =? LBRACK) || (get_op b =? LPAR) then None
                            else Some (XS (or_slot0 b q) sc, (td, ts, (fst v, sc)))
                end in
    match ts with
    | [] => stop
    | (t, x) :: r =>
      if existsb (Z.eqb t) [AUTO_KW; REGISTER_KW; STATIC_KW; EXTERN_KW; TYPEDEF_KW] then
        if negb (sc =? 0) then None else if (t =? TYPEDEF_KW) && negb ad then None else rec (SSpec ty q t ad) (td, r, v)
      else if t =? INLINE_KW then rec (SSpec ty q sc ad) (td, r, v)
      else if (t =? CONST_KW) || (t =? VOLATILE_KW) then rec (SSpec ty (Z.lor q (MK_TYPE_SPECIFIER t)) sc ad) (td, r, v)
      else if existsb (Z.eqb t) [CHAR_KW; INT_KW; VOID_KW; SHORT_KW; SIGNED_KW; UNSIGNED_KW; LONG_KW; FLOAT_KW; DOUBLE_KW] then
        match ty with
        | Some _ => None
        | None => match parse_type_specifier sh ts with
                  | (Some b, r') => rec (SSpec (Some b) q sc ad) (td, r', v)
                  | (None, _) => None
                  end
        end
      else if existsb (Z.eqb t) [STRUCT_KW; UNION_KW] then
        match ty with
        | Some _ => None
        | None =>
          let '(name, r') := tag_name r in
          if tk r' =? LBRACE then
            libind (rec (SBody []) (td, tl r', v)) (fun l s => rec (SSpec (Some (new_ast3 t (Raw 0) name (list_node l))) q sc ad) s)
          else rec (SSpec (Some (new_ast3 t (Raw 0) name (Raw 0))) q sc ad) (td, r', v)
        end
      else if t =? ENUM_KW then
        match ty with
        | Some _ => None
        | None =>
          let '(name, r') := tag_name r in
          if tk r' =? LBRACE then
            enbind (rec (SEnum []) (td, tl r', v)) (fun l s =>
            match parse_enumerators sh l with
            | None => None
            | Some vs => rec (SSpec (Some (new_ast3 t (Raw 0) name (list_node vs))) q sc ad) s
            end)
          else rec (SSpec (Some (new_ast3 t (Raw 0) name (Raw 0))) q sc ad) (td, r', v)
        end
      else if t =? TYPE then
        match ty, td x with
        | None, Some b => rec (SSpec (Some b) q sc ad) (td, r, v)
        | _, _ => None
        end
      else stop
    end
  (* 2720-2763 *)
  | SBody acc =>
    if tk ts =? RBRACE then Some (XL acc, (td, tl ts, v))
    else if negb (is_type_starter (tk ts)) then None
    else spbind (rec (SSpec None 0 0 false) s) (fun base _ s =>
      let '(td, ts, v) := s in
      if tk ts =? SEMI then
        if is_tag (get_op base) then rec (SBody (acc ++ [new_ast3 DECL (Raw 0) base (Raw 0)])) (td, tl ts, v) else None
      else libind (rec (SMember base acc) s) (fun acc s => sexpect SEMI s (fun s => rec (SBody acc) s)))
  (* 2738-2756 *)
  | SMember base acc =>
    debind td (ex td (NDeclr false [] base) ts v) (fun n ls s =>
    let acc := acc ++ [decl_node n ls base] in
    let '(td, ts, v) := s in
    if tk ts =? COMMA then rec (SMember base acc) (td, tl ts, v) else Some (XL acc, s))
  (* 2647-2690 *)
  | SEnum acc =>
    if tk ts =? RBRACE then Some (XE acc, (td, tl ts, v))
    else match ts with
    | [] => None
    | (t, x) :: r =>
      if t =? IDENTIFIER then
        let next := fun acc (s : sst) => let '(td, ts, v) := s in
          if tk ts =? COMMA then rec (SEnum acc) (td, tl ts, v)
          else sexpect RBRACE s (fun s => Some (XE acc, s)) in
        if tk r =? EQ then exbind td (ex td NAssign (tl r) v) (fun e s => next (acc ++ [(x, Some e)]) s)
        else next (acc ++ [(x, None)]) (td, r, v)
      else None
    end
  (* 3130-3136 *)
  | SInit =>
    if tk ts =? LBRACE then libind (rec (SInits []) (td, tl ts, v)) (fun l s => Some (XA (new_ast1 INITIALIZER_LIST (list_node l)), s))
    else exbind td (ex td NAssign ts v) (fun e s => Some (XA e, s))
  (* 3111-3124 *)
  | SInits acc =>
    if (tk ts =? RBRACE) || (tk ts =? EOFt) then sexpect RBRACE s (fun s => Some (XL acc, s))
    else if sh && (tk ts =? LBRACE) then None
    else abind (rec SInit s) (fun e s =>
      let '(td, ts, v) := s in
      if tk ts =? COMMA then rec (SInits (acc ++ [e])) (td, tl ts, v)
      else sexpect RBRACE s (fun s => Some (XL (acc ++ [e]), s)))
  (* 3138-3150 *)
  | SDInit istd base =>
    debind td (ex td (NDeclr false [] base) ts v) (fun n ls s =>
    let '(td, ts, v) := s in
    if negb istd && (tk ts =? EQ) then
      abind (rec SInit (td, tl ts, v)) (fun i s => Some (XA (set_init (decl_node n ls base) i), s))
    else Some (XA (decl_node n ls base), s))
  (* 3156-3165 *)
  | SDeclrs istd base acc =>
    if tk ts =? SEMI then Some (XL acc, s)
    else if tk ts =? COMMA then abind (rec (SDInit istd base) (td, tl ts, v)) (fun d s => rec (SDeclrs istd base (acc ++ [d])) s)
    else None
  (* 3206-3253 *)
  | SDecl local =>
    spbind (rec (SSpec None 0 0 true) s) (fun base sc s =>
    let '(td, ts, v) := s in
    if tk ts =? SEMI then
      if is_tag (get_op base) && negb (sc =? TYPEDEF_KW) then Some (XA base, (td, tl ts, v)) else None
    else if sc =? TYPEDEF_KW then
      abind (rec (SDInit true base) s) (fun d s =>
      libind (rec (SDeclrs true base [d]) s) (fun l s =>
      let '(td, ts, v) := s in
      match add_typedefs sh td l with
      | None => None
      | Some td' => sexpect SEMI (td', map (cls td') ts, v) (fun s => Some (XA (new_ast1 TYPEDEF_KW (list_node l)), s))
      end))
    else
      abind (rec (SDInit false base) s) (fun d s =>
      let '(td, ts, v) := s in
      if (get_op (child 1 d) =? LPAR) && (tk ts =? LBRACE) then
        if local then None
        else if negb (named_params (child 1 (child 1 d))) then None
        else if negb (match child 2 d with Raw _ => true | _ => false end) then None
        else libind (rec (SItems []) (td, tl ts, v)) (fun l s => Some (XA (new_ast2 FUN_DECL d (block l)), s))
      else libind (rec (SDeclrs false base [d]) s) (fun l s =>
           let sc := snd (snd s) in
           sexpect SEMI s (fun s => Some (XA (new_ast2 DECLS (list_node l) (Raw sc)), s)))))
  (* 3754-3889 *)
  | SStmt =>
    let paren (s : sst) k := sexpect LPAR s (fun s => let '(td, ts, v) := s in exbind td (ex td NParen ts v) k) in
    (* 3733: parse_comma_expression_opt *)
    let opt (s : sst) (k : ast -> sst -> option (sres * sst)) := let '(td, ts, v) := s in
      if existsb (Z.eqb (tk ts)) [COLON; SEMI; RPAR] then k (Raw 0) s else exbind td (ex td NComma ts v) k in
    let nx : sst := (td, tl ts, v) in
    if tk ts =? IF_KW then
      paren nx (fun e s => abind (rec SStmt s) (fun s1 s =>
      let '(td, ts, v) := s in
      if tk ts =? ELSE_KW then abind (rec SStmt (td, tl ts, v)) (fun s2 s => Some (XA (new_ast3 IF_KW e s1 s2), s))
      else Some (XA (new_ast3 IF_KW e s1 (Raw 0)), s)))
    else if tk ts =? SWITCH_KW then
      paren nx (fun e s => abind (rec SStmt s) (fun s1 s => Some (XA (new_ast2 SWITCH_KW e s1), s)))
    else if tk ts =? CASE_KW then
      exbind td (ex td NComma (tl ts) v) (fun e s => sexpect COLON s (fun s =>
      abind (rec SStmt s) (fun s1 s => Some (XA (new_ast2 CASE_KW e s1), s))))
    else if tk ts =? DEFAULT_KW then
      sexpect COLON nx (fun s => abind (rec SStmt s) (fun s1 s => Some (XA (new_ast1 DEFAULT_KW s1), s)))
    else if tk ts =? WHILE_KW then
      paren nx (fun e s => abind (rec SStmt s) (fun s1 s => Some (XA (new_ast2 WHILE_KW e s1), s)))
    else if tk ts =? DO_KW then
      abind (rec SStmt nx) (fun s1 s => sexpect WHILE_KW s (fun s =>
      paren s (fun e s => sexpect SEMI s (fun s => Some (XA (new_ast2 DO_KW s1 e), s)))))
    else if tk ts =? FOR_KW then
      sexpect LPAR nx (fun s => opt s (fun e1 s => sexpect SEMI s (fun s => opt s (fun e2 s => sexpect SEMI s (fun s =>
      opt s (fun e3 s => sexpect RPAR s (fun s =>
      abind (rec SStmt s) (fun s1 s => Some (XA (new_ast4 FOR_KW e1 e2 e3 s1), s)))))))))
    else if tk ts =? GOTO_KW then
      (* the label is the value of the token after the identifier: a semicolon read from the file leaves val alone *)
      sexpect IDENTIFIER nx (fun s =>
      let x := match s with (_, (_, x) :: _, _) => x | _ => 0 end in
      sexpect SEMI s (fun s => Some (XA (new_ast1 GOTO_KW (new_ast0 IDENTIFIER x)), s)))
    else if tk ts =? CONTINUE_KW then sexpect SEMI nx (fun s => Some (XA (new_ast0 CONTINUE_KW 0), s))
    else if tk ts =? BREAK_KW then sexpect SEMI nx (fun s => Some (XA (new_ast0 BREAK_KW 0), s))
    else if tk ts =? RETURN_KW then opt nx (fun e s => sexpect SEMI s (fun s => Some (XA (new_ast1 RETURN_KW e), s)))
    else if tk ts =? LBRACE then libind (rec (SItems []) nx) (fun l s => Some (XA (block l), s))
    else opt s (fun e s1 =>
      let '(td1, ts1, v1) := s1 in
      if (tk ts1 =? COLON) && negb (tk ts =? LPAR) && (get_op e =? IDENTIFIER) then
        abind (rec SStmt (td1, tl ts1, v1)) (fun s2 s => Some (XA (new_ast2 COLON e s2), s))
      else sexpect SEMI s1 (fun s => Some (XA e, s)))
  (* 3899-3922 *)
  | SItems acc =>
    if (tk ts =? RBRACE) || (tk ts =? EOFt) then sexpect RBRACE s (fun s => Some (XL acc, s))
    else abind (rec (if is_type_starter (tk ts) then SDecl true else SStmt) s) (fun a s => rec (SItems (acc ++ [a])) s)
  (* 4108-4116 *)
  | SFile acc =>
    if tk ts =? EOFt then Some (XL acc, s)
    else abind (rec (SDecl false) s) (fun a s => rec (SFile (acc ++ [a])) s)
  end.

Fixpoint PS (fuel : nat) (n : snt) (s : sst) : option (sres * sst) :=
  match fuel with
  | O => None
  | S f => SB (fun td => P sh td join f) (PS f) n s
  end.
End Parser.
