(** * C56: from the characters of a source file to what the executable does

    The specification composes four independent ones: C's tokens (Lex.v, [lexes]), C's grammar (GrammarStmt.v, [F]), which
    program a tree denotes ([denotes], below) and what a program does (CProg.v, [cprog]).  The model composes the
    tokenizer, the parser, the reading of trees (FrontEnd.v) and the code generator (NProg.v). *)
From Coq Require Import ZArith List Bool Lia Ascii String.
From Verif Require Import Base Asm AsmProof Elf PropAsm X86 X86Proof X86Sem NMach NPtr CLang CProg NGen NSupp NEqs NLink NRt NProg NWhole NWhole3 PropNative.
From Verif Require Import Ast EvalConst Lex PropLex Enum Parse Grammar PropParse ParseStmt GrammarStmt PropParseStmt FrontEnd.
Import ListNotations.
Local Notation length := List.length.
Open Scope Z_scope.
Open Scope list_scope.

(** ** Specification: the program a tree denotes *)
(** 6.7.2: types. [q] are the specifier bits; only unsigned matters. *)
Definition unsigned_bit (q : Z) : bool := Z.testbit q 29.
Inductive is_ty : ast -> ty -> Prop :=
| it_void q : is_ty (new_ast0 VOID_KW q) TVoid
| it_int k n q : In (k, n) [(CHAR_KW, 1); (SHORT_KW, 2); (INT_KW, 4); (LONG_KW, 8)] -> is_ty (new_ast0 k q) (TInt n (negb (unsigned_bit q)))
| it_ptr q t t' : is_ty t t' -> is_ty (new_ast2 STAR q t) (TPtr t')
| it_arr t t' n : is_ty t t' -> is_ty (new_ast2 LBRACK t (Raw n)) (TArr t' n).
(** 6.5.5 - 6.5.14 *)
Definition C_binary : list (Z * bop) :=
  [(STAR, Mul); (SLASHC, Div); (PERCENT, Rem); (PLUS, Add); (MINUS, Sub); (LSHIFT, Shl); (RSHIFT, Shr); (LT, Lt); (GT, Gt); (LT_EQ, Le);
   (GT_EQ, Ge); (EQ_EQ, CLang.Eq); (EXCL_EQ, Ne); (AMP, And); (CARET, Xor); (BAR, Or)].
(** 6.5.16.2 *)
Definition C_assign : list (Z * bop) :=
  [(STAR_EQ, Mul); (SLASH_EQ, Div); (PERCENT_EQ, Rem); (PLUS_EQ, Add); (MINUS_EQ, Sub); (LSHIFT_EQ, Shl); (RSHIFT_EQ, Shr); (AMP_EQ, And);
   (CARET_EQ, Xor); (BAR_EQ, Or)].
(** 6.5.3, 6.5.2.4, 6.5.1 *)
Definition C_unary : list (Z * (expr -> expr)) :=
  [(AMP, EAddr); (STAR, EDeref); (PLUS, EPlus); (MINUS, ENeg); (TILDE, EBnot); (EXCL, ENot); (PARENS, EPar); (SIZEOF_KW, ESizeE);
   (PLUS_PLUS_PRE, EInc false true); (MINUS_MINUS_PRE, EInc false false); (PLUS_PLUS_POST, EInc true true); (MINUS_MINUS_POST, EInc true false)].
Definition C_other : list (Z * (expr -> expr -> expr)) :=
  [(LBRACK, EIdx); (COMMA, EComma); (EQ, EAsg); (AMP_AMP, EAnd); (BAR_BAR, EOr)].
Definition id_ (x : Z) : ast := new_ast0 IDENTIFIER x.
Inductive is_e : ast -> expr -> Prop :=
| ie_lit z : is_e (new_ast0 INTEGER (- z)) (ELit z)             (* the parser keeps the negated value (C03) *)
| ie_chr z : is_e (new_ast0 CHARACTER z) (EChr z)
| ie_var x : is_e (id_ x) (EVar x)
| ie_un op f a a' : In (op, f) C_unary -> is_e a a' -> is_e (new_ast1 op a) (f a')
| ie_bin op o a a' b b' : In (op, o) C_binary -> is_e a a' -> is_e b b' -> is_e (new_ast2 op a b) (EBin o a' b')
| ie_asg op o a a' b b' : In (op, o) C_assign -> is_e a a' -> is_e b b' -> is_e (new_ast2 op a b) (EOpAsg o a' b')
| ie_two op f a a' b b' : In (op, f) C_other -> is_e a a' -> is_e b b' -> is_e (new_ast2 op a b) (f a' b')
| ie_sizet t t' : is_ty t t' -> is_e (new_ast1 SIZEOF_KW (new_ast3 DECL (Raw 0) t (Raw 0))) (ESizeT t')
| ie_cast t t' a a' : is_ty t t' -> is_e a a' -> is_e (new_ast2 CAST (new_ast3 DECL (Raw 0) t (Raw 0)) a) (ECast t' a')
| ie_cond c c' a a' b b' : is_e c c' -> is_e a a' -> is_e b b' -> is_e (new_ast3 QUEST c a b) (ECond c' a' b')
| ie_call f l l' : is_args l l' -> is_e (new_ast2 LPAR (id_ f) l) (ECall f l')
with is_args : ast -> args -> Prop :=
| ia_nil : is_args (Raw 0) ANil
| ia_cons a a' l l' : is_e a a' -> is_args l l' -> is_args (new_ast2 LIST a l) (ACons a' l').
Inductive is_opt : ast -> option expr -> Prop :=
| io_none : is_opt (Raw 0) None
| io_some a a' : is_e a a' -> is_opt a (Some a').
(** A declared variable; a declaration of several. *)
Definition is_decl1 (d : ast) (v : Z * ty * option expr) : Prop :=
  exists t i, d = new_ast3 DECL (id_ (fst (fst v))) t i /\ is_ty t (snd (fst v)) /\ is_opt i (snd v).
(** 6.8.1: the constant of a case label *)
Inductive is_const : ast -> Z -> Prop :=
| ic_lit z : is_const (new_ast0 INTEGER (- z)) z
| ic_chr z : is_const (new_ast0 CHARACTER z) z
| ic_neg z : 0 < z -> is_const (new_ast1 MINUS (new_ast0 INTEGER (- z))) (- z).
Inductive is_s : ast -> stmt -> Prop :=
| is_skip : is_s (Raw 0) SSkip                                   (* ; and { } *)
| is_expr a a' : is_e a a' -> is_s a (SExpr a')
| is_if c c' a a' b b' : is_e c c' -> is_s a a' -> is_s b b' -> is_s (new_ast3 IF_KW c a b) (SIf c' a' b')
| is_while c c' a a' : is_e c c' -> is_s a a' -> is_s (new_ast2 WHILE_KW c a) (SWhile c' a')
| is_do c c' a a' : is_e c c' -> is_s a a' -> is_s (new_ast2 DO_KW a c) (SDo a' c')
| is_for i i' c c' p p' a a' : is_opt i i' -> is_opt c c' -> is_opt p p' -> is_s a a' -> is_s (new_ast4 FOR_KW i c p a) (SFor i' c' p' a')
| is_switch c c' l l' : is_e c c' -> is_swl l l' -> is_s (new_ast2 SWITCH_KW c (block l)) (SSwitch c' l')
| is_break : is_s (new_ast0 BREAK_KW 0) SBreak
| is_continue : is_s (new_ast0 CONTINUE_KW 0) SContinue
| is_return a a' : is_opt a a' -> is_s (new_ast1 RETURN_KW a) (SReturn a')
| is_block a l l' : is_items (a :: l) l' -> is_s (block (a :: l)) (SBlock l')
with is_items : list ast -> items -> Prop :=
| ii_nil : is_items [] INil
| ii_stmt a a' l l' : is_s a a' -> is_items l l' -> is_items (a :: l) (IStmt a' l')
| ii_decl ds vs l l' : Forall2 is_decl1 ds vs -> is_items l l' ->
    is_items (new_ast2 DECLS (list_node ds) (Raw 0) :: l) (fold_right (fun '(x, t, i) k => IDecl x t i k) l' vs)
with is_swl : list ast -> swl -> Prop :=
| iw_nil : is_swl [] WNil
| iw_cons a labs s l l' : is_labelled a labs s -> is_swl l l' -> is_swl (a :: l) (WCons labs s l')
with is_labelled : ast -> list lbl -> stmt -> Prop :=
| il_none a s : is_s a s -> is_labelled a [] s
| il_case c z a labs s : is_const c z -> is_labelled a labs s -> is_labelled (new_ast2 CASE_KW c a) (LCase z :: labs) s
| il_default a labs s : is_labelled a labs s -> is_labelled (new_ast1 DEFAULT_KW a) (LDefault :: labs) s.
(** 6.7.6.3: parameters; arrays become pointers *)
Definition is_param (d : ast) (p : Z * ty) : Prop :=
  exists t t', d = new_ast3 DECL (id_ (fst p)) t (Raw 0) /\ is_ty t t' /\ snd p = match t' with TArr u _ => TPtr u | _ => t' end.
Inductive is_gvar : ast -> gdecl -> Prop :=
| ig_var d x t i : is_decl1 d (x, t, i) -> is_gvar d (DVar x t i)
| ig_proto f t t' ps : is_ty t t' -> is_gvar (new_ast3 DECL (id_ f) (new_ast3 LPAR t ps (Raw 0)) (Raw 0)) (DProto f t').
Inductive is_g : ast -> list gdecl -> Prop :=
| ig_decls ds l sc : sc = 0 \/ sc = STATIC_KW -> Forall2 is_gvar ds l -> is_g (new_ast2 DECLS (list_node ds) (Raw sc)) l
| ig_fun f t t' ps ps' b b' : is_ty t t' -> Forall2 is_param ps ps' -> is_items b b' ->
    is_g (new_ast2 FUN_DECL (new_ast3 DECL (id_ f) (new_ast3 LPAR t (list_node ps) (Raw 0)) (Raw 0)) (block b)) [DFun f ps' t' b']
| ig_typedef ds vs : Forall2 is_decl1 ds vs -> is_g (new_ast1 TYPEDEF_KW (list_node ds)) [].
Inductive denotes : list ast -> list gdecl -> Prop :=
| dn_nil : denotes [] []
| dn_cons a l d r : is_g a l -> denotes d r -> denotes (a :: d) (l ++ r).

(** 7.21, 6.4.1: the identifiers are numbered; the library functions pnut binds have the numbers of CProg.v. *)
Definition library : list (list Z * Z) :=
  [(zs "main", id_main); (zs "exit", id_exit); (zs "read", id_read); (zs "write", id_write); (zs "open", id_open); (zs "close", id_close);
   (zs "lseek", id_lseek); (zs "unlink", id_unlink); (zs "putchar", id_putchar); (zs "getchar", id_getchar); (zs "fopen", id_fopen);
   (zs "fclose", id_fclose); (zs "fgetc", id_fgetc); (zs "malloc", id_malloc); (zs "free", id_free); (zs "printf", id_printf)].
Definition is_name (n : list Z) : Prop := n <> [] /\ forallb is_idchar n = true.
Definition numbering (idn : list Z -> Z) : Prop :=
  (forall a b, is_name a -> is_name b -> idn a = idn b -> a = b) /\ Forall (fun p => idn (fst p) = snd p) library.
(** 6.4.1: the keywords (without _Bool, restrict and the like, which pnut does not have) *)
Definition C_keywords : list (list Z * Z) :=
  [(zs "while", WHILE_KW); (zs "volatile", VOLATILE_KW); (zs "void", VOID_KW);
   (zs "unsigned", UNSIGNED_KW); (zs "union", UNION_KW); (zs "typedef", TYPEDEF_KW); (zs "switch", SWITCH_KW); (zs "struct", STRUCT_KW); (zs "static", STATIC_KW);
   (zs "sizeof", SIZEOF_KW); (zs "signed", SIGNED_KW); (zs "short", SHORT_KW); (zs "return", RETURN_KW); (zs "register", REGISTER_KW); (zs "long", LONG_KW);
   (zs "int", INT_KW); (zs "inline", INLINE_KW); (zs "if", IF_KW); (zs "goto", GOTO_KW); (zs "for", FOR_KW); (zs "float", FLOAT_KW);
   (zs "extern", EXTERN_KW); (zs "enum", ENUM_KW); (zs "else", ELSE_KW); (zs "double", DOUBLE_KW); (zs "do", DO_KW); (zs "default", DEFAULT_KW);
   (zs "continue", CONTINUE_KW); (zs "const", CONST_KW); (zs "char", CHAR_KW); (zs "case", CASE_KW); (zs "break", BREAK_KW); (zs "auto", AUTO_KW)].
(** 6.4.1: a token of C is a keyword or an identifier. *)
Definition C_token (idn : list Z -> Z) (t : ltok) (k : token) : Prop :=
  match t with
  | LOp o => k = (o, 0)
  | LId n => In (n, fst k) C_keywords /\ snd k = 0 \/ (forall kw, ~ In (n, kw) C_keywords) /\ k = (IDENTIFIER, idn n)
  | LNum _ v => k = (INTEGER, v)
  | LChr v => k = (CHARACTER, v)
  | LStr _ => k = (STRING, 0)
  end.
(** Names pnut predefines as macros (pnut.c:1690-1725): the text must not use them. *)
Definition predefined : list (list Z) :=
  [zs "PNUT_CC"; zs "__DATE__"; zs "__TIME__"; zs "__TIMESTAMP__"; zs "__FILE__"; zs "__LINE__"; zs "PNUT_EXE"; zs "PNUT_EXE_32"; zs "PNUT_EXE_64";
   zs "PNUT_I386"; zs "PNUT_I386_LINUX"; zs "PNUT_X86_64"; zs "PNUT_X86_64_LINUX"; zs "PNUT_X86_64_MAC"].
Definition no_macro (lts : list ltok) : Prop := forall n, In (LId n) lts -> ~ In n predefined.

(** The text [file] is the C program [ds], by the rules of C. *)
Definition no_types0 : Z -> option ast := fun _ => None.
Definition join0 : Z -> Z -> Z := fun a _ => a.
Definition C_program (idn : list Z -> Z) (file : list Z) (ds : list gdecl) : Prop :=
  exists lts ts asts, lexes true file lts /\ no_dots lts /\ no_macro lts /\ Forall2 (C_token idn) lts ts /\
    F false join0 no_types0 ts asts /\ denotes asts ds.

(** ** The model: main (pnut.c:4000-4136) on a file without directives *)
Definition front (idn : list Z -> Z) (file : list Z) (ds : list gdecl) : Prop :=
  exists lts asts td v, file_tokens file = Some lts /\
    SParses false join0 (SFile []) (no_types0, map (cls no_types0) (map (tok_of idn) lts), (false, 0)) (XL asts, (td, [], v)) /\
    read_program asts = Some ds.

(** ** Proofs *)
Lemma leqb_eq a : forall b, leqb a b = true <-> a = b.
Proof.
  induction a as [|x a IH]; intros [|y b]; cbn [leqb]; split; intros H; try reflexivity; try discriminate.
  - apply andb_true_iff in H as [H1 H2]. apply Z.eqb_eq in H1. apply IH in H2. congruence.
  - injection H as -> ->. rewrite Z.eqb_refl. apply IH. reflexivity.
Qed.
Lemma find_kw_in n l k : find_kw n l = Some k -> In (n, k) l.
Proof.
  induction l as [|[m t] l IH]; cbn [find_kw]; [discriminate|]. destruct (leqb n m) eqn:E; intros H; [|right; auto].
  left. apply leqb_eq in E. congruence.
Qed.
Lemma find_kw_none n l : find_kw n l = None -> forall k, ~ In (n, k) l.
Proof.
  induction l as [|[m t] l IH]; cbn [find_kw]; intros H k []; destruct (leqb n m) eqn:E; try discriminate.
  - injection H0 as -> ->. assert (leqb n n = true) by (apply leqb_eq; reflexivity). congruence.
  - eapply IH; eassumption.
Qed.
Lemma kw_unique : NoDup (map fst keywords).
Proof. vm_compute. repeat (constructor; [cbn [In]; intuition discriminate|]). constructor. Qed.
Lemma nodup_fst {A B} (l : list (A * B)) n a b : NoDup (map fst l) -> In (n, a) l -> In (n, b) l -> a = b.
Proof.
  induction l as [|[m t] l IH]; cbn [map fst In]; intros N H1 H2; [contradiction|]. inversion_clear N as [|? ? N1 N2].
  destruct H1 as [E1|H1], H2 as [E2|H2].
  - congruence.
  - injection E1 as -> ->. destruct N1. apply (in_map fst) in H2. exact H2.
  - injection E2 as -> ->. destruct N1. apply (in_map fst) in H1. exact H1.
  - auto.
Qed.
Definition mem2 (p : list Z * Z) (l : list (list Z * Z)) : bool := existsb (fun q => leqb (fst p) (fst q) && (snd p =? snd q)) l.
Lemma mem2_in p l : mem2 p l = true -> In p l.
Proof.
  unfold mem2. rewrite existsb_exists. intros ([n k] & H & E). apply andb_true_iff in E as [E1 E2]. apply leqb_eq in E1. apply Z.eqb_eq in E2.
  destruct p. cbn [fst snd] in *. subst. exact H.
Qed.
Lemma kw_same p : In p C_keywords <-> In p keywords.
Proof.
  assert (A : forallb (fun p => mem2 p keywords) C_keywords = true) by (vm_compute; reflexivity).
  assert (B : forallb (fun p => mem2 p C_keywords) keywords = true) by (vm_compute; reflexivity).
  rewrite forallb_forall in A, B. split; intros H; apply mem2_in; auto.
Qed.
Lemma tok_of_spec idn t k : C_token idn t k -> tok_of idn t = k.
Proof.
  destruct t as [o|n|kd v|v|l]; cbn [C_token tok_of]; intros H; try (subst; reflexivity).
  assert (H' : In (n, fst k) keywords /\ snd k = 0 \/ (forall kw, ~ In (n, kw) keywords) /\ k = (IDENTIFIER, idn n)).
  { destruct H as [[H1 H2]|[H1 H2]]; [left; split; [apply kw_same, H1|exact H2]|right; split; [intros kw X; apply (H1 kw), kw_same, X|exact H2]]. }
  clear H. rename H' into H.
  destruct (find_kw n keywords) as [kw|] eqn:E.
  - apply find_kw_in in E. destruct k as [k1 k2]. cbn [fst snd] in H. destruct H as [[H1 H2]|[H1 _]]; [|destruct (H1 _ E)].
    subst k2. f_equal. eapply nodup_fst; [exact kw_unique|exact E|exact H1].
  - destruct H as [[H1 _]|[_ H]]; [|congruence]. destruct (find_kw_none _ _ E _ H1).
Qed.
Lemma toks_spec idn lts ts : Forall2 (C_token idn) lts ts -> map (tok_of idn) lts = ts.
Proof. induction 1 as [|t k lts ts H _ IH]; cbn [map]; [reflexivity|]. rewrite IH. f_equal. apply tok_of_spec, H. Qed.

Lemma ty_ok t t' : is_ty t t' -> read_ty t = Some t'.
Proof.
  induction 1 as [q|k n q H|q t t' H IH|t t' n H IH]; cbn [new_ast0 new_ast2 read_ty]; try reflexivity.
  - destruct H as [H|[H|[H|[H|[]]]]]; injection H as <- <-; reflexivity.
  - change (STAR =? STAR) with true. cbv iota. rewrite IH. reflexivity.
  - change (LBRACK =? STAR) with false. change (LBRACK =? LBRACK) with true. cbv iota. rewrite IH. reflexivity.
Qed.
(** Operators of expressions. *)
Lemma e_not_decl a e : is_e a e -> is_decl a = false.
Proof. destruct 1; try reflexivity. Qed.
Ltac tab H := repeat (destruct H as [H|H]; [injection H as <- <-|]); [..|destruct H].
Ltac ops := cbv beta iota delta [new_ast0 new_ast1 new_ast2 new_ast3 new_ast4].
Scheme is_e_i := Minimality for is_e Sort Prop with is_args_i := Minimality for is_args Sort Prop.
Combined Scheme is_e_args from is_e_i, is_args_i.
Lemma read_un op f : In (op, f) C_unary -> read_unop op = Some f.
Proof. intros H. unfold C_unary in H. tab H; reflexivity. Qed.
Lemma read_two op f : In (op, f) C_other -> read_op2 op = Some f /\ (op =? CAST) = false /\ (op =? LPAR) = false /\ (op =? DOT) = false /\ (op =? ARROW) = false.
Proof. intros H. unfold C_other in H. tab H; repeat split. Qed.
Lemma read_bin op f : In (op, f) C_binary -> read_op2 op = Some (EBin f) /\ (op =? CAST) = false /\ (op =? LPAR) = false /\ (op =? DOT) = false /\ (op =? ARROW) = false.
Proof. intros H. unfold C_binary in H. tab H; repeat split. Qed.
Lemma read_asg op f : In (op, f) C_assign -> read_op2 op = Some (EOpAsg f) /\ (op =? CAST) = false /\ (op =? LPAR) = false /\ (op =? DOT) = false /\ (op =? ARROW) = false.
Proof. intros H. unfold C_assign in H. tab H; repeat split. Qed.
Lemma read_e_2 op a b f : read_op2 op = Some f /\ (op =? CAST) = false /\ (op =? LPAR) = false /\ (op =? DOT) = false /\ (op =? ARROW) = false ->
  read_e (new_ast2 op a b) = map2 f (read_e a) (read_e b).
Proof. intros (E & E1 & E2 & E3 & E4). unfold new_ast2. cbn [read_e]. rewrite E, E1, E2, E3, E4. reflexivity. Qed.
Lemma e_ok : (forall a e, is_e a e -> read_e a = Some e) /\ (forall a l, is_args a l -> read_args a = Some l).
Proof.
  assert (N : (forall a e, is_e a e -> read_e a = Some e /\ is_decl a = false) /\ (forall a l, is_args a l -> read_args a = Some l)).
  { apply is_e_args.
    - intros z. split; [|reflexivity]. unfold new_ast0. cbn [read_e]. change (INTEGER =? INTEGER) with true. cbv iota. rewrite Z.opp_involutive. reflexivity.
    - intros z. split; reflexivity.
    - intros x. split; reflexivity.
    - intros op f a a' HI _ [IH D]. split; [|reflexivity]. unfold new_ast1. cbn [read_e]. rewrite D, andb_false_r, (read_un _ _ HI), IH. reflexivity.
    - intros op o a a' b b' HI _ [IH _] _ [IH2 _]. split; [|reflexivity]. rewrite (read_e_2 _ _ _ _ (read_bin _ _ HI)), IH, IH2. reflexivity.
    - intros op o a a' b b' HI _ [IH _] _ [IH2 _]. split; [|reflexivity]. rewrite (read_e_2 _ _ _ _ (read_asg _ _ HI)), IH, IH2. reflexivity.
    - intros op f a a' b b' HI _ [IH _] _ [IH2 _]. split; [|reflexivity]. rewrite (read_e_2 _ _ _ _ (read_two _ _ HI)), IH, IH2. reflexivity.
    - intros t t' HT. split; [|reflexivity]. unfold new_ast1, new_ast3. cbn [read_e is_decl decl_ty]. 
      change (SIZEOF_KW =? SIZEOF_KW) with true. change (DECL =? DECL) with true. cbn [andb]. rewrite (ty_ok _ _ HT). reflexivity.
    - intros t t' a a' HT _ [IH _]. split; [|reflexivity]. unfold new_ast2, new_ast3. cbn [read_e decl_ty].
      change (CAST =? CAST) with true. change (DECL =? DECL) with true. cbv iota. rewrite (ty_ok _ _ HT), IH. reflexivity.
    - intros c c' a a' b b' _ [IH _] _ [IH2 _] _ [IH3 _]. split; [|reflexivity]. unfold new_ast3. cbn [read_e].
      change (QUEST =? QUEST) with true. cbv iota. rewrite IH, IH2, IH3. reflexivity.
    - intros f l l' _ IH. split; [|reflexivity]. unfold new_ast2, id_, new_ast0. cbn [read_e name_of].
      change (LPAR =? CAST) with false. change (LPAR =? LPAR) with true. change (IDENTIFIER =? IDENTIFIER) with true. cbv iota. rewrite IH. reflexivity.
    - reflexivity.
    - intros a a' l l' _ [IH _] _ IH2. unfold new_ast2. cbn [read_args]. change (LIST =? LIST) with true. cbv iota. rewrite IH, IH2. reflexivity. }
  destruct N as [N1 N2]. split; [|exact N2]. intros a e H. apply (N1 a e H).
Qed.
Lemma opt_ok a e : is_opt a e -> read_opt a = Some e.
Proof.
  destruct 1 as [|a a' H]; [reflexivity|]. pose proof (proj1 e_ok _ _ H) as E. destruct a as [z|op v kids]; [inversion H|].
  cbn [read_opt]. rewrite E. reflexivity.
Qed.
Lemma decl1_ok d v : is_decl1 d v -> one_decl d = Some v.
Proof.
  destruct v as [[x t] i]. intros (t0 & i0 & -> & H1 & H2). cbn [fst snd] in *. unfold one_decl, new_ast3. change (DECL =? DECL) with true. cbv iota.
  unfold id_, new_ast0. cbn [name_of]. change (IDENTIFIER =? IDENTIFIER) with true. cbv iota. rewrite (ty_ok _ _ H1), (opt_ok _ _ H2). reflexivity.
Qed.
Lemma decls_ok ds vs : Forall2 is_decl1 ds vs -> read_decls (list_node ds) = Some vs.
Proof.
  induction 1 as [|d v ds vs H _ IH]; [reflexivity|]. cbn [list_node]. unfold new_ast2. cbn [read_decls]. change (LIST =? LIST) with true. cbv iota.
  rewrite (decl1_ok _ _ H), IH. reflexivity.
Qed.
Lemma const_ok a z : is_const a z -> const_of a = Some z.
Proof.
  destruct 1 as [z|z|z H].
  - unfold new_ast0, const_of. change (INTEGER =? INTEGER) with true. cbv iota. rewrite Z.opp_involutive. reflexivity.
  - reflexivity.
  - unfold new_ast1, new_ast0, const_of. change (MINUS =? MINUS) with true. change (INTEGER =? INTEGER) with true. cbn [andb].
    destruct (Z.ltb_spec (- z) 0); [reflexivity|lia].
Qed.

(** Statements. *)
Lemma e_is_s a e : is_e a e -> read_ls a = Some ([], SExpr e).
Proof.
  intros H. pose proof (proj1 e_ok _ _ H) as E. inversion H; subst; try reflexivity.
  - unfold new_ast0 in *. cbn [read_ls]. rewrite E. reflexivity.
  - match goal with X : In _ C_unary |- _ => unfold C_unary in X; tab X end; unfold new_ast1 in *; cbn [read_ls]; rewrite E; reflexivity.
  - match goal with X : In _ C_binary |- _ => unfold C_binary in X; tab X end; unfold new_ast2 in *; cbn [read_ls]; rewrite E; reflexivity.
  - match goal with X : In _ C_assign |- _ => unfold C_assign in X; tab X end; unfold new_ast2 in *; cbn [read_ls]; rewrite E; reflexivity.
  - match goal with X : In _ C_other |- _ => unfold C_other in X; tab X end; unfold new_ast2 in *; cbn [read_ls]; rewrite E; reflexivity.
  - unfold new_ast1, new_ast3 in *. cbn [read_ls]. rewrite E. reflexivity.
  - unfold new_ast2, new_ast3 in *. cbn [read_ls]. rewrite E. reflexivity.
  - unfold new_ast3 in *. cbn [read_ls]. rewrite E. reflexivity.
  - unfold new_ast2 in *. cbn [read_ls]. rewrite E. reflexivity.
Qed.
Lemma e_op a e : is_e a e -> get_op a <> DECLS.
Proof.
  destruct 1; cbn [get_op new_ast0 new_ast1 new_ast2 new_ast3 id_]; try discriminate;
    match goal with X : In _ ?T |- _ => unfold T in X; tab X end; discriminate.
Qed.
Lemma s_op a c : is_s a c -> get_op a <> DECLS.
Proof. destruct 1; cbn [get_op new_ast0 new_ast1 new_ast2 new_ast3 new_ast4 block]; try discriminate. eapply e_op. eassumption. Qed.
Lemma cons_stmt a s l : get_op a <> DECLS -> cons_item a (Some s) (Some l) = Some (IStmt s l).
Proof.
  intros H. unfold cons_item. destruct a as [z|op v kids]; [reflexivity|]. cbn [get_op] in H. apply Z.eqb_neq in H.
  destruct kids as [|x [|y [|]]]; try reflexivity; destruct y; try reflexivity. rewrite H. reflexivity.
Qed.
Scheme is_s_i := Minimality for is_s Sort Prop with is_items_i := Minimality for is_items Sort Prop
  with is_swl_i := Minimality for is_swl Sort Prop with is_labelled_i := Minimality for is_labelled Sort Prop.
Combined Scheme is_s_all from is_s_i, is_items_i, is_swl_i, is_labelled_i.
Lemma s_ok : (forall a s, is_s a s -> read_ls a = Some ([], s)) /\ (forall l i, is_items l i -> read_items (block l) = Some i) /\
  (forall l w, is_swl l w -> read_swl (block l) = Some w) /\ (forall a ls s, is_labelled a ls s -> read_ls a = Some (ls, s)).
Proof.
  pose proof (proj1 e_ok) as EK.
  assert (N : (forall a s, is_s a s -> read_ls a = Some ([], s) /\ get_op a <> DECLS) /\ (forall l i, is_items l i -> read_items (block l) = Some i) /\
  (forall l w, is_swl l w -> read_swl (block l) = Some w) /\ (forall a ls s, is_labelled a ls s -> read_ls a = Some (ls, s))).
  { apply is_s_all.
    - split; [reflexivity|discriminate].
    - intros a a' H. split; [exact (e_is_s _ _ H)|exact (e_op _ _ H)].
    - intros c c' a a' b b' H _ [IH _] _ [IH2 _]. split; [|discriminate]. unfold new_ast3. cbn [read_ls]. change (IF_KW =? IF_KW) with true. cbv iota.
      rewrite (EK _ _ H), IH, IH2. reflexivity.
    - intros c c' a a' H _ [IH _]. split; [|discriminate]. unfold new_ast2. cbn [read_ls]. change (WHILE_KW =? LBRACE) with false. change (WHILE_KW =? CASE_KW) with false. change (WHILE_KW =? WHILE_KW) with true. cbv iota.
      rewrite (EK _ _ H), IH. reflexivity.
    - intros c c' a a' H _ [IH _]. split; [|discriminate]. unfold new_ast2. cbn [read_ls]. change (DO_KW =? LBRACE) with false. change (DO_KW =? CASE_KW) with false. change (DO_KW =? WHILE_KW) with false. change (DO_KW =? DO_KW) with true. cbv iota.
      rewrite (EK _ _ H), IH. reflexivity.
    - intros i i' c c' p p' a a' H1 H2 H3 _ [IH _]. split; [|discriminate]. unfold new_ast4. cbn [read_ls]. change (FOR_KW =? FOR_KW) with true. cbv iota.
      rewrite (opt_ok _ _ H1), (opt_ok _ _ H2), (opt_ok _ _ H3), IH. reflexivity.
    - intros c c' l l' H _ IH. split; [|discriminate]. unfold new_ast2. cbn [read_ls]. change (SWITCH_KW =? LBRACE) with false. change (SWITCH_KW =? CASE_KW) with false. change (SWITCH_KW =? WHILE_KW) with false.
      change (SWITCH_KW =? DO_KW) with false. change (SWITCH_KW =? SWITCH_KW) with true. cbv iota. rewrite (EK _ _ H), IH. reflexivity.
    - split; [reflexivity|discriminate].
    - split; [reflexivity|discriminate].
    - intros a a' H. split; [|discriminate]. unfold new_ast1. cbn [read_ls]. change (RETURN_KW =? RETURN_KW) with true. cbv iota. rewrite (opt_ok _ _ H). reflexivity.
    - intros a l l' _ IH. split; [|discriminate]. cbn [block] in *. unfold new_ast2 in *. cbn [read_ls]. cbn [read_items] in IH. change (LBRACE =? LBRACE) with true in *. cbv iota in *. rewrite IH. reflexivity.
    - reflexivity.
    - intros a a' l l' _ [IH IO] _ IH2. cbn [block]. unfold new_ast2. cbn [read_items]. change (LBRACE =? LBRACE) with true. cbv iota. rewrite IH, IH2. cbn [plain]. apply cons_stmt, IO.
    - intros ds vs l l' H _ IH. cbn [block]. unfold new_ast2. cbn [read_items]. change (LBRACE =? LBRACE) with true. cbv iota. rewrite IH. unfold cons_item. change (DECLS =? DECLS) with true. change (0 =? 0) with true. cbv iota.
      rewrite (decls_ok _ _ H). reflexivity.
    - reflexivity.
    - intros a labs s l l' _ IH _ IH2. cbn [block]. unfold new_ast2. cbn [read_swl]. change (LBRACE =? LBRACE) with true. cbv iota. rewrite IH, IH2. reflexivity.
    - intros a s _ [IH _]. exact IH.
    - intros c z a labs s H _ IH. unfold new_ast2. cbn [read_ls]. change (CASE_KW =? LBRACE) with false. change (CASE_KW =? CASE_KW) with true. cbv iota. rewrite (const_ok _ _ H), IH. reflexivity.
    - intros a labs s _ IH. unfold new_ast1. cbn [read_ls]. change (DEFAULT_KW =? RETURN_KW) with false. change (DEFAULT_KW =? DEFAULT_KW) with true. cbv iota. rewrite IH. reflexivity. }
  destruct N as (N1 & N2 & N3 & N4). split; [intros a s H; apply (N1 a s H)|]. auto.
Qed.
(** File scope. *)
Lemma params_ok ps ps' : Forall2 is_param ps ps' -> read_params (list_node ps) = Some ps'.
Proof.
  induction 1 as [|d [x u] ds vs (t & t' & -> & H1 & H2) _ IH]; [reflexivity|]. cbn [fst snd] in *. cbn [list_node]. unfold new_ast2. cbn [read_params]. change (LIST =? LIST) with true. cbv iota.
  rewrite (decl1_ok _ (x, t', None)) by (exists t, (Raw 0); cbn [fst snd]; repeat split; [exact H1|constructor]). rewrite IH. subst u. destruct t'; reflexivity.
Qed.
Lemma gvar_ok d g : is_gvar d g -> read_gvar d = Some g.
Proof.
  destruct 1 as [d x t i H|f t t' ps H].
  - pose proof (decl1_ok _ _ H) as E. destruct H as (t0 & i0 & -> & H1 & H2). cbn [fst snd] in *. unfold new_ast3 in *. unfold read_gvar.
    inversion H1; subst; unfold new_ast0, new_ast2 in *; rewrite E; reflexivity.
  - unfold new_ast3, id_, new_ast0, read_gvar. change (DECL =? DECL) with true. change (LPAR =? LPAR) with true. change (0 =? 0) with true. cbn [andb name_of].
    change (IDENTIFIER =? IDENTIFIER) with true. cbv iota. rewrite (ty_ok _ _ H). reflexivity.
Qed.
Lemma gvars_ok ds l : Forall2 is_gvar ds l -> read_gvars (list_node ds) = Some l.
Proof.
  induction 1 as [|d v ds vs H _ IH]; [reflexivity|]. cbn [list_node]. unfold new_ast2. cbn [read_gvars]. change (LIST =? LIST) with true. cbv iota.
  rewrite (gvar_ok _ _ H), IH. reflexivity.
Qed.
Lemma g_ok a l : is_g a l -> read_g a = Some l.
Proof.
  destruct 1 as [ds l sc Hs H|f t t' ps ps' b b' H1 H2 H3|ds vs H].
  - unfold new_ast2, read_g. change (DECLS =? DECLS) with true. cbv iota. destruct Hs as [-> | ->]; cbn [Z.eqb orb]; exact (gvars_ok _ _ H).
  - unfold new_ast2, new_ast3, id_, new_ast0, read_g. change (FUN_DECL =? DECLS) with false. change (FUN_DECL =? FUN_DECL) with true. change (DECL =? DECL) with true.
    change (LPAR =? LPAR) with true. change (0 =? 0) with true. cbn [andb name_of]. change (IDENTIFIER =? IDENTIFIER) with true. cbv iota.
    rewrite (params_ok _ _ H2), (ty_ok _ _ H1), (proj1 (proj2 s_ok) _ _ H3). reflexivity.
  - unfold new_ast1, read_g. change (TYPEDEF_KW =? TYPEDEF_KW) with true. cbv iota. rewrite (decls_ok _ _ H). reflexivity.
Qed.
Lemma program_ok asts ds : denotes asts ds -> read_program asts = Some ds.
Proof. induction 1 as [|a l d r H _ IH]; [reflexivity|]. cbn [read_program]. rewrite (g_ok _ _ H), IH. reflexivity. Qed.

(** ** C56 *)
(** The front end reads every C program of the fragment as that program, and as no other. *)
Theorem c56_front_partial : forall idn file ds, C_program idn file ds -> front idn file ds.
Proof.
  intros idn file ds (lts & ts & asts & H1 & H2 & _ & H3 & H4 & H5). exists lts, asts.
  destruct (c49_file false join0 no_types0 ts asts (false, 0) H4) as (td & v & E). exists td, v.
  split; [exact (c07_tokens _ _ H1 H2)|]. split; [|exact (program_ok _ _ H5)]. rewrite (toks_spec _ _ _ H3). exact E.
Qed.
Theorem c56_front_unique : forall idn file ds1 ds2, front idn file ds1 -> front idn file ds2 -> ds1 = ds2.
Proof.
  intros idn file ds1 ds2 (l1 & a1 & t1 & v1 & A1 & A2 & A3) (l2 & a2 & t2 & v2 & B1 & B2 & B3).
  assert (l1 = l2) by congruence. subst l2. pose proof (c49_deterministic _ _ _ _ _ _ A2 B2) as E. injection E as <- _ _. congruence.
Qed.
(** So a text is at most one C program. *)
Theorem c56_meaning_unique : forall idn file ds1 ds2, C_program idn file ds1 -> C_program idn file ds2 -> ds1 = ds2.
Proof. intros idn file ds1 ds2 H1 H2. eapply c56_front_unique; apply c56_front_partial; eassumption. Qed.

(** pnut on a text: the front end, then the code generator of the fragment (C48). *)
Definition pnut_compiles (idn : list Z -> Z) (W : Z) (file : list Z) (sF : gst) (bytes : list Z) : Prop :=
  exists ds code, front idn file ds /\ compiled W ds code sF bytes.
(** The machine code made from the text of a C program does what C says of the program. *)
Theorem c56_text_to_process_partial : forall idn W file ds sF bytes,
  C_program idn file ds -> pnut_compiles idn W file sF bytes -> galloc sF < 2 ^ 31 ->
  forall cb slim sp0 GB HB La argc inp s, started W bytes (galloc sF) cb slim sp0 GB HB La argc inp s ->
  forall n Q, cprog W ds n La (mm s) argc (sp0 + W) inp (fun c st => Q c (cout st)) ->
  exists k, run W slim k s = Over \/ exists c s', run W slim k s = Exit c s' /\ Q c (outp s').
Proof.
  intros idn W file ds sF bytes HP (ds' & code & HF & HC) HA. apply c56_front_partial in HP.
  pose proof (c56_front_unique _ _ _ _ HP HF). subst ds'. exact (c48_native_program_partial W ds code sF bytes HC HA).
Qed.
(** The executable file made from the text: an ELF file that puts that code where it is entered. *)
Theorem c56_text_to_file_partial : forall idn (w64 : bool) file sF bytes, pnut_compiles idn (if w64 then 8 else 4) file sF bytes ->
  exists ds code st, front idn file ds /\ codegen_prog (if w64 then 8 else 4) ds = Some (code, sF) /\
    do_ops (if w64 then 8 else 4) as0 (hops (if w64 then 8 else 4) code) = Some st /\
    let exe := elf_file w64 (map (fun i => Asm.code st (Z.of_nat i)) (seq 0 (Z.to_nat (ca st)))) in
    loads w64 ((if w64 then read_elf64 else read_elf32) exe) exe bytes.
Proof.
  intros idn w64 file sF bytes (ds & code & HF & HC). destruct (c48_native_file_partial w64 ds code sF bytes HC) as (st & H1 & H2).
  exists ds, code, st. split; [exact HF|]. split; [exact (cp_code _ _ _ _ _ HC)|]. split; [exact H1|exact H2].
Qed.
