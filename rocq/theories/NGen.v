(** * Code generation for expressions and statements (exe.c:149-188, 354-356, 542-690, 803-1219, 1235-1663, 2005-2345)

    The C functions append to the code buffer and update [cgc_fs] and the label counter; here they run in a monad over
    (cgc_fs, next label) that collects the helper calls of x86.c, and [fatal_error] is failure.  Bindings are a list
    (the chain cgc_locals / cgc_globals); the tree is the expression type of [CLang].
    Not covered: structure parameters, results and initializers, enums, strings, function pointers, goto, static locals, initializer lists,
    64-bit literals. *)
From Coq Require Import ZArith List Lia Bool.
From Verif Require Import Base Asm X86 X86Proof NMach NPtr CLang.
Import ListNotations.
Open Scope Z_scope.

Definition M (A : Type) : Type := Z * Z -> option (A * list hop * (Z * Z)).
Definition ret {A} (a : A) : M A := fun s => Some (a, [], s).
Definition bind {A B} (m : M A) (k : A -> M B) : M B := fun s =>
  match m s with
  | Some (a, c, s1) => match k a s1 with Some (b, c', s2) => Some (b, c ++ c', s2) | None => None end
  | None => None
  end.
Definition fail {A} : M A := fun _ => None.
Definition emit (l : list hop) : M unit := fun s => Some (tt, l, s).
(** exe.c:86-88 [grow_fs]; reading and writing cgc_fs. *)
Definition grow_fs (k : Z) : M unit := fun '(fs, l) => Some (tt, [], (fs + k, l)).
Definition get_fs : M Z := fun '(fs, l) => Some (fs, [], (fs, l)).
Definition set_fs (k : Z) : M unit := fun '(_, l) => Some (tt, [], (k, l)).
(** exe.c:399-416 [alloc_label]: a new label; exe.c:449-474 [def_label]. *)
Definition alloc_label : M Z := fun '(fs, l) => Some (l, [], (fs, l + 1)).
Definition def_label (l : Z) : M unit := emit [HD l].
Definition lift {A} (o : option A) : M A := match o with Some a => ret a | None => fail end.
Notation "x <- a ;; b" := (bind a (fun x => b)) (at level 61, a at next level, right associativity).
Notation "a ;;; b" := (bind a (fun _ => b)) (at level 61, right associativity).

Section G.
Variable W : Z.

(** Bindings of cgc_locals (env.c:118-187). *)
Inductive bnd := BParam (x off : Z) (t : ty) | BLocal (x off : Z) (t : ty)
               | BLoop (fs brk cont : Z) | BSwitch (fs brk : Z).
(** Bindings of cgc_globals (env.c:189-213). *)
Inductive gbnd := GVar (x off : Z) (t : ty) | GFun (f lb : Z) (r : ty) | GStruct (id : Z) (ms : list (Z * (Z * ty))).
Variable glo : list gbnd.

(** env.c:55-64 [cgc_lookup_var] on locals, and on globals; env.c:66-68 [cgc_lookup_fun]. *)
Fixpoint look_loc (x : Z) (l : list bnd) : option bnd :=
  match l with
  | [] => None
  | (BParam y _ _ as b) :: r | (BLocal y _ _ as b) :: r => if x =? y then Some b else look_loc x r
  | _ :: r => look_loc x r
  end.
Fixpoint look_glo (x : Z) (l : list gbnd) : option (Z * ty) :=
  match l with [] => None | GVar y o t :: r => if x =? y then Some (o, t) else look_glo x r | _ :: r => look_glo x r end.
Fixpoint look_fun (f : Z) (l : list gbnd) : option (Z * ty) :=
  match l with [] => None | GFun y lb r' :: r => if f =? y then Some (lb, r') else look_fun f r | _ :: r => look_fun f r end.
(** env.c:92-94 [cgc_lookup_struct]; exe.c:740-802 [struct_member_offset], [struct_member]: the offset and the type of a
    member.  Simplification: the table holds the offsets; that they are what exe.c:711-775 computes is C33. *)
Fixpoint look_str (id : Z) (l : list gbnd) : option (list (Z * (Z * ty))) :=
  match l with [] => None | GStruct y ms :: r => if id =? y then Some ms else look_str id r | _ :: r => look_str id r end.
Definition look_mem (g : list gbnd) (id m : Z) : option (Z * ty) :=
  match look_str id g with Some ms => lookupZ ms m | None => None end.
(** env.c:76-98: the enclosing loop or switch, the enclosing loop. *)
Fixpoint encl_any (l : list bnd) : option (Z * Z) :=
  match l with [] => None | BLoop fs b _ :: _ => Some (fs, b) | BSwitch fs b :: _ => Some (fs, b) | _ :: r => encl_any r end.
Fixpoint encl_loop (l : list bnd) : option (Z * Z) :=
  match l with [] => None | BLoop fs _ c :: _ => Some (fs, c) | _ :: r => encl_loop r end.

(** exe.c:542-553 [dereference_type]. *)
Definition deref_ty (t : ty) : option ty := match t with TArr t _ | TPtr t => Some t | _ => None end.
(** exe.c:559-562, 589-602, 604-616. *)
Definition is_ptr (t : ty) : bool := match t with TArr _ _ | TPtr _ => true | _ => false end.
Definition is_struct (t : ty) : bool := match t with TStruct _ _ _ => true | _ => false end.
Definition is_num (t : ty) : bool := match t with TInt _ _ => true | _ => false end.
Definition is_sgn (t : ty) : bool := match t with TInt _ s => s | _ => true end.
(** exe.c:622-658 [type_width]. *)
Definition word_size_align (n : Z) : Z := (n + W - 1) / W * W.
Fixpoint width_of (t : ty) (arr : bool) : Z :=
  match t with
  | TArr t n => if arr then n * width_of t true else W
  | TPtr _ => W
  | TVoid => 1
  | TInt n _ => n
  | TStruct _ _ sz => sz
  end.
Definition type_width (t : ty) (arr al : bool) : Z :=
  let w := width_of t arr in if al then word_size_align w else w.
(** exe.c:661-663 [ref_type_width]. *)
Definition ref_type_width (t : ty) : option Z :=
  match deref_ty t with Some t => Some (type_width t false false) | None => None end.

(** Type recorded for a variable (exe.c:803-820 [resolve_identifier], 850-857). *)
Definition var_type (loc : list bnd) (x : Z) : option ty :=
  match look_loc x loc with
  | Some (BParam _ _ t) | Some (BLocal _ _ t) => Some t
  | _ => match look_glo x glo with Some (_, t) => Some t | None => None end
  end.
Definition fun_type (f : Z) : option ty := match look_fun f glo with Some (_, t) => Some t | None => None end.

Definition mem_type (id m : Z) : option ty := match look_mem glo id m with Some (_, t) => Some t | None => None end.

(** exe.c:822-989 [value_type]; the types of variables, functions and members are parameters. *)
Fixpoint value_type (tv tf : Z -> option ty) (tm : Z -> Z -> option ty) (e : expr) : option ty :=
  let vt := value_type tv tf tm in
  match e with
  | ELit _ => Some (TInt 4 true)
  | EChr _ => Some (TInt 1 true)
  | EVar x => tv x
  | EDeref e => match vt e with Some t => deref_ty t | None => None end
  | EAddr e => match vt e with Some t => Some (TPtr t) | None => None end
  | ENot _ | ESizeT _ | ESizeE _ => Some (TInt 4 true)
  | EPlus e | ENeg e | EBnot e | EInc _ _ e | EPar e => vt e
  | EBin o a b =>
      if is_cmp o then Some (TInt 4 true)
      else match vt a, vt b with
           | Some t1, Some t2 =>
               if is_ptr t1 && is_ptr t2 && (match o with Sub => true | _ => false end) then Some (TInt 4 true)
               else if is_ptr t1 then Some t1 else Some t2
           | _, _ => None
           end
  | EComma _ b => vt b
  | EIdx a b => match vt a, vt b with
                | Some t1, Some t2 => if is_ptr t1 then deref_ty t1 else if is_ptr t2 then deref_ty t2 else None
                | _, _ => None
                end
  | EAsg a _ | EOpAsg _ a _ => vt a
  | EAnd a _ | EOr a _ => vt a
  | ECall f _ => tf f
  | ECast t _ => Some t
  | ECond _ a _ => vt a
  | EDot e m => match vt e with Some (TStruct _ id _) => tm id m | _ => None end
  | EArrow e m => match vt e with Some (TPtr (TStruct _ id _)) => tm id m | _ => None end
  end.

Definition push (r : Z) : M unit := emit [HC (HPush r)].
Definition pop (r : Z) : M unit := emit [HC (HPop r)].
Definition movi (r n : Z) : M unit := emit [HC (HMovImm r n)].
Definition alu2 (o : alu) (d s : Z) : M unit := emit [HC (HAlu o d s)].
(** exe.c:354-356 [grow_stack]. *)
Definition grow_stack (words : Z) : M unit := emit [HC (HAddImm reg_SP (- words * W))].
(** exe.c:149-173 [load_mem_location]; a full-word load needs no extension. *)
Definition okw (w : Z) : bool := (w =? 1) || (w =? 2) || (w =? 4) || ((w =? 8) && (W =? 8)).
Definition load_mem_location (dst base off w : Z) (sg : bool) : M unit :=
  if okw w then emit [HC (HLoad (sg && negb (w =? W)) w dst base off)] else fail.
(** exe.c:176-188 [write_mem_location]. *)
Definition write_mem_location (base off src w : Z) : M unit :=
  if (w <=? W) && okw w then emit [HC (HStore w base off src)] else fail.

(** exe.c:1012-1017: the condition for a comparison. *)
Definition cond_of (o : bop) (sg : bool) : Z :=
  match o with
  | Lt => if sg then LT else LT_U | Gt => if sg then GT else GT_U
  | Le => if sg then LE else LE_U | Ge => if sg then GE else GE_U
  | Eq => EQ | _ => NE
  end.
Definition mulp (r : Z) (t : ty) : M unit := w <- lift (ref_type_width t) ;; emit (mul_for_pointer_arith r w).
Definition both_num (t1 t2 : ty) (l : list hop) : M unit := if is_num t1 && is_num t2 then emit l else fail.

(** exe.c:991-1116 [codegen_binop], for the operators of [bop]; operands are given by their types. *)
Definition codegen_binop (o : bop) (t1 t2 : ty) : M unit :=
  let sg := is_sgn t1 && is_sgn t2 in
  pop reg_Y ;;; pop reg_X ;;;
  (if is_cmp o then
     l1 <- alloc_label ;; l2 <- alloc_label ;;
     emit (h_jump_cond_reg_reg (cond_of o sg) l1 reg_X reg_Y) ;;; alu2 Axor reg_X reg_X ;;; emit [HC (HJump l2)] ;;;
     def_label l1 ;;; movi reg_X 1 ;;; def_label l2
   else
     match o with
     | Add => (if is_ptr t1 && negb (is_ptr t2) then mulp reg_Y t1
               else if is_ptr t2 && negb (is_ptr t1) then mulp reg_X t2 else ret tt) ;;;
              alu2 Aadd reg_X reg_Y
     | Sub => if is_ptr t1 && is_ptr t2 then
                alu2 Asub reg_X reg_Y ;;; (w <- lift (ref_type_width t1) ;; emit (div_for_pointer_arith reg_X w))
              else if is_ptr t1 then mulp reg_Y t1 ;;; alu2 Asub reg_X reg_Y
              else if is_ptr t2 then mulp reg_X t2 ;;; alu2 Asub reg_X reg_Y
              else alu2 Asub reg_X reg_Y
     | Mul => both_num t1 t2 [HC (HImul reg_X reg_Y)]
     | Div => both_num t1 t2 (if sg then h_idiv_reg_reg reg_X reg_Y else h_div_reg_reg reg_X reg_Y)
     | Rem => both_num t1 t2 (if sg then h_irem_reg_reg reg_X reg_Y else h_rem_reg_reg reg_X reg_Y)
     | Shr => both_num t1 t2 (if sg then h_shift X86.Sar reg_X reg_Y else h_shift X86.Shr reg_X reg_Y)
     | Shl => both_num t1 t2 (h_shift X86.Shl reg_X reg_Y)
     | And => both_num t1 t2 [HC (HAlu Aand reg_X reg_Y)]
     | Or => both_num t1 t2 [HC (HAlu Aor reg_X reg_Y)]
     | Xor => both_num t1 t2 [HC (HAlu Axor reg_X reg_Y)]
     | _ => fail
     end) ;;;
  push reg_X.
(** exe.c:1084-1085: the comma operator. *)
Definition codegen_comma : M unit := pop reg_Y ;;; pop reg_X ;;; alu2 Amov reg_X reg_Y ;;; push reg_X.
(** exe.c:1086-1106: array access. *)
Definition codegen_index (t1 t2 : ty) : M unit :=
  pop reg_Y ;;; pop reg_X ;;;
  (if is_ptr t1 && negb (is_ptr t2) then
     mulp reg_Y t1 ;;; alu2 Aadd reg_X reg_Y ;;;
     (w <- lift (ref_type_width t1) ;; d <- lift (deref_ty t1) ;; load_mem_location reg_X reg_X 0 w (is_sgn d))
   else if is_ptr t2 && negb (is_ptr t1) then
     mulp reg_X t2 ;;; alu2 Aadd reg_X reg_Y ;;;
     (w <- lift (ref_type_width t2) ;; d <- lift (deref_ty t2) ;; load_mem_location reg_X reg_X 0 w (is_sgn d))
   else fail) ;;;
  push reg_X.

Section Fn.
Variable loc : list bnd.
Definition vt (e : expr) : option ty := value_type (var_type loc) fun_type mem_type e.

(** exe.c:1368-1663 [codegen_rvalue], 1235-1349 [codegen_lvalue] (returns the width), 1122-1170 [codegen_params]
    (returns the number of words pushed; structure arguments are left out), 1174-1217 [codegen_call]. *)
Definition lbinop (o : bop) (a b : option ty) : M unit := t1 <- lift a ;; t2 <- lift b ;; codegen_binop o t1 t2.
Definition is_arr (t : ty) : bool := match t with TArr _ _ => true | _ => false end.
(** exe.c:580-583 [is_aggregate_type] *)
Definition is_agg (t : ty) : bool := is_arr t || is_struct t.
(** The structure type to the left of [.] or behind the pointer to the left of [->]. *)
Definition arrow_type (t : ty) : option ty := match t with TPtr t => Some t | _ => None end.
(** exe.c:1303-1306: the address of a member, from the address of the structure in [r]; 1590-1599: its value. *)
Definition codegen_member (t : ty) (m r : Z) : M ty :=
  match t with
  | TStruct u id _ => mt <- lift (look_mem glo id m) ;; (if u then ret tt else emit [HC (HAddImm r (fst mt))]) ;;; ret (snd mt)
  | _ => fail
  end.
Definition codegen_mval (t : ty) (m : Z) : M unit :=
  mt <- codegen_member t m reg_Y ;;
  (if is_agg mt then ret tt else load_mem_location reg_Y reg_Y 0 (type_width mt false false) (is_sgn mt)) ;;; push reg_Y.
Definition codegen_maddr (t : ty) (m : Z) : M Z :=
  mt <- codegen_member t m reg_X ;; push reg_X ;;; grow_fs (-1) ;;; ret (type_width mt true false).
(** exe.c:190-204 [copy_obj] *)
Definition copy_words (dst src n : Z) : list hop :=
  flat_map (fun i => [HC (HLoad false W reg_Z src (Z.of_nat i * W)); HC (HStore W dst (Z.of_nat i * W) reg_Z)]) (seq 0 (Z.to_nat (n / W))).
Definition copy_bytes (dst src n : Z) : list hop :=
  flat_map (fun i => let o := n / W * W + Z.of_nat i in [HC (HLoad false 1 reg_Z src o); HC (HStore 1 dst o reg_Z)]) (seq 0 (Z.to_nat (n mod W))).
Definition copy_obj (dst src n : Z) : list hop := copy_words dst src n ++ copy_bytes dst src n.
Fixpoint codegen_rvalue (e : expr) : M unit :=
  (match e with
   | ELit z => movi reg_X z ;;; push reg_X
   | EChr z => movi reg_X z ;;; push reg_X
   | EVar x =>
       match look_loc x loc with
       | Some (BParam _ off t) =>
           fs <- get_fs ;; movi reg_X ((fs - off) * W) ;;; alu2 Aadd reg_X reg_SP ;;;
           (if is_struct t then ret tt else load_mem_location reg_X reg_X 0 (type_width t false false) (is_sgn t)) ;;; push reg_X
       | Some (BLocal _ off t) =>
           fs <- get_fs ;; movi reg_X ((fs - off) * W) ;;; alu2 Aadd reg_X reg_SP ;;;
           (if is_agg t then ret tt else load_mem_location reg_X reg_X 0 (type_width t false false) (is_sgn t)) ;;; push reg_X
       | Some _ => fail
       | None =>
           match look_glo x glo with
           | Some (off, t) =>
               movi reg_X off ;;; alu2 Aadd reg_X reg_glo ;;;
               (if is_agg t then ret tt else load_mem_location reg_X reg_X 0 (type_width t false false) (is_sgn t)) ;;; push reg_X
           | None => fail
           end
       end
   | EDeref e =>
       t <- lift (vt e) ;; codegen_rvalue e ;;; grow_fs (-1) ;;;
       (if is_ptr t then
          pop reg_X ;;; (w <- lift (ref_type_width t) ;; d <- lift (deref_ty t) ;; load_mem_location reg_X reg_X 0 w (is_sgn d)) ;;;
          push reg_X
        else fail)
   | EPlus e | EPar e => codegen_rvalue e ;;; grow_fs (-1)
   | ENeg e => codegen_rvalue e ;;; pop reg_Y ;;; grow_fs (-1) ;;; alu2 Axor reg_X reg_X ;;; alu2 Asub reg_X reg_Y ;;; push reg_X
   | EBnot e => codegen_rvalue e ;;; pop reg_Y ;;; grow_fs (-1) ;;; movi reg_X (-1) ;;; alu2 Axor reg_X reg_Y ;;; push reg_X
   | ENot e => alu2 Axor reg_X reg_X ;;; push reg_X ;;; grow_fs 1 ;;; codegen_rvalue e ;;;
               lbinop Eq (Some (TInt 4 true)) (vt e) ;;; grow_fs (-2)
   | EInc true up e =>
       w <- codegen_lvalue e ;; pop reg_Y ;;;
       (t <- lift (vt e) ;; load_mem_location reg_X reg_Y 0 w (is_sgn t)) ;;;
       push reg_X ;;; push reg_Y ;;; push reg_X ;;; movi reg_X 1 ;;; push reg_X ;;;
       lbinop (if up then Add else Sub) (vt e) (Some (TInt 4 true)) ;;;
       pop reg_X ;;; pop reg_Y ;;; grow_fs (-1) ;;; write_mem_location reg_Y 0 reg_X w
   | EInc false up e =>
       w <- codegen_lvalue e ;; pop reg_Y ;;; push reg_Y ;;;
       (t <- lift (vt e) ;; load_mem_location reg_X reg_Y 0 w (is_sgn t)) ;;;
       push reg_X ;;; movi reg_X 1 ;;; push reg_X ;;;
       lbinop (if up then Add else Sub) (vt e) (Some (TInt 4 true)) ;;;
       pop reg_X ;;; pop reg_Y ;;; grow_fs (-1) ;;; write_mem_location reg_Y 0 reg_X w ;;; push reg_X
   | EAddr e => codegen_lvalue e ;;; grow_fs (-1)
   | ESizeT t => movi reg_X (type_width t true false) ;;; push reg_X
   | ESizeE e => (t <- lift (vt e) ;; movi reg_X (type_width t true false)) ;;; push reg_X
   | EBin o a b => codegen_rvalue a ;;; codegen_rvalue b ;;; lbinop o (vt a) (vt b) ;;; grow_fs (-2)
   | EIdx a b => codegen_rvalue a ;;; codegen_rvalue b ;;;
                 (t1 <- lift (vt a) ;; t2 <- lift (vt b) ;; codegen_index t1 t2) ;;; grow_fs (-2)
   | EComma a b => codegen_rvalue a ;;; codegen_rvalue b ;;; codegen_comma ;;; grow_fs (-2)
   | EAsg a b =>
       t <- lift (vt a) ;; w <- codegen_lvalue a ;;
       (if is_struct t then
          codegen_lvalue b ;;; pop reg_X ;;; pop reg_Y ;;; grow_fs (-2) ;;; emit (copy_obj reg_Y reg_X w)
        else
          codegen_rvalue b ;;; pop reg_X ;;; pop reg_Y ;;; grow_fs (-2) ;;; write_mem_location reg_Y 0 reg_X w) ;;; push reg_X
   | EOpAsg o a b =>
       w <- codegen_lvalue a ;; pop reg_Y ;;; push reg_Y ;;;
       (t <- lift (vt a) ;; load_mem_location reg_X reg_Y 0 w (is_sgn t)) ;;;
       push reg_X ;;; grow_fs 1 ;;; codegen_rvalue b ;;; lbinop o (vt a) (vt b) ;;;
       pop reg_X ;;; pop reg_Y ;;; grow_fs (-3) ;;; write_mem_location reg_Y 0 reg_X w ;;; push reg_X
   | EAnd a b => l1 <- alloc_label ;; codegen_rvalue a ;;; pop reg_X ;;; push reg_X ;;; alu2 Axor reg_Y reg_Y ;;;
                 emit (h_jump_cond_reg_reg EQ l1 reg_X reg_Y) ;;; pop reg_X ;;; grow_fs (-1) ;;; codegen_rvalue b ;;; grow_fs (-1) ;;;
                 def_label l1
   | EOr a b => l1 <- alloc_label ;; codegen_rvalue a ;;; pop reg_X ;;; push reg_X ;;; alu2 Axor reg_Y reg_Y ;;;
                emit (h_jump_cond_reg_reg NE l1 reg_X reg_Y) ;;; pop reg_X ;;; grow_fs (-1) ;;; codegen_rvalue b ;;; grow_fs (-1) ;;;
                def_label l1
   | ECall f l =>
       n <- codegen_params l ;;
       match look_loc f loc, look_glo f glo, look_fun f glo with
       | None, None, Some (lb, _) => emit [HC (HCall lb)] ;;; grow_stack (- n) ;;; grow_fs (- n) ;;; push reg_X
       | _, _, _ => fail
       end
   | ECast t e =>
       codegen_rvalue e ;;;
       (te <- lift (vt e) ;;
        if type_width t false false <? type_width te false false then
          load_mem_location reg_X reg_SP 0 (type_width t false false) (is_sgn t) ;;; grow_stack (-1) ;;; push reg_X
        else ret tt) ;;;
       grow_fs (-1)
   | ECond c a b =>
       l1 <- alloc_label ;; l2 <- alloc_label ;; codegen_rvalue c ;;; pop reg_X ;;; grow_fs (-1) ;;; alu2 Axor reg_Y reg_Y ;;;
       emit (h_jump_cond_reg_reg EQ l1 reg_X reg_Y) ;;; codegen_rvalue a ;;; emit [HC (HJump l2)] ;;; def_label l1 ;;;
       grow_fs (-1) ;;; codegen_rvalue b ;;; grow_fs (-1) ;;; def_label l2
   | EDot e m => t <- lift (vt e) ;; (if is_struct t then codegen_lvalue e ;;; pop reg_Y ;;; grow_fs (-1) ;;; codegen_mval t m else fail)
   | EArrow e m => t <- lift (vt e) ;; t <- lift (arrow_type t) ;; (if is_struct t then codegen_rvalue e ;;; pop reg_Y ;;; grow_fs (-1) ;;; codegen_mval t m else fail)
   end) ;;; grow_fs 1
with codegen_lvalue (e : expr) : M Z :=
  w <- match e with
       | EVar x =>
           match look_loc x loc with
           | Some (BParam _ off t) | Some (BLocal _ off t) =>
               fs <- get_fs ;; movi reg_X ((fs - off) * W) ;;; alu2 Aadd reg_X reg_SP ;;; push reg_X ;;; ret (type_width t true false)
           | Some _ => fail
           | None =>
               match look_glo x glo with
               | Some (off, t) => movi reg_X off ;;; alu2 Aadd reg_X reg_glo ;;; push reg_X ;;; ret (type_width t true false)
               | None => fail
               end
           end
       | EDeref e => codegen_rvalue e ;;; grow_fs (-1) ;;; (t <- lift (vt e) ;; lift (ref_type_width t))
       | EPar e => w <- codegen_lvalue e ;; grow_fs (-1) ;;; ret w
       | EIdx a b => t <- lift (vt a) ;; codegen_rvalue a ;;; codegen_rvalue b ;;; lbinop Add (vt a) (vt b) ;;; grow_fs (-2) ;;;
                     lift (ref_type_width t)
       | EDot e m => t <- lift (vt e) ;; (if is_struct t then codegen_lvalue e ;;; pop reg_X ;;; codegen_maddr t m else fail)
       | EArrow e m => t <- lift (vt e) ;; t <- lift (arrow_type t) ;; (if is_struct t then codegen_rvalue e ;;; pop reg_X ;;; codegen_maddr t m else fail)
       | _ => fail
       end ;;
  (if w =? 0 then fail else grow_fs 1 ;;; ret w)
with codegen_params (l : args) : M Z :=
  match l with
  | ANil => ret 0
  | ACons e l => n <- codegen_params l ;; codegen_rvalue e ;;; (t <- lift (vt e) ;; if is_struct t then fail else ret (n + type_width t false true / W))
  end.
End Fn.

(** exe.c:1995-2003 [compute_local_var_decl_size] in words. *)
Definition local_size (t : ty) : Z := (if is_agg t then type_width t true true else W) / W.

(** exe.c:2087-2346 [codegen_statement], 2066-2085 [codegen_body], 2005-2019 [codegen_local_var_decl] with the scalar
    case of [codegen_initializer] (exe.c:1912-1916).  [codegen_swl] is the body of a switch, with the label of the next
    case test and the label of the default case (heap[binding+4], heap[binding+5]) passed along. *)
Definition test (loc : list bnd) (e : expr) (c l : Z) : M unit :=
  codegen_rvalue loc e ;;; pop reg_X ;;; grow_fs (-1) ;;; alu2 Axor reg_Y reg_Y ;;; emit (h_jump_cond_reg_reg c l reg_X reg_Y).
Definition codegen_opt (loc : list bnd) (e : option expr) : M unit :=
  match e with Some e => codegen_rvalue loc e ;;; pop reg_X ;;; grow_fs (-1) | None => ret tt end.
Definition case_expr (z : Z) : expr := if z <? 0 then ENeg (ELit (- z)) else ELit z.
Definition codegen_label (loc : list bnd) (st : Z * option Z) (lb : lbl) : M (Z * option Z) :=
  let '(nxt, dfl) := st in
  match lb with
  | LCase z =>
      l1 <- alloc_label ;; emit [HC (HJump l1)] ;;; def_label nxt ;;; n' <- alloc_label ;;
      codegen_rvalue loc (case_expr z) ;;; pop reg_Y ;;; grow_fs (-1) ;;;
      emit [HC (HLoad false W reg_X reg_SP 0)] ;;; emit (h_jump_cond_reg_reg EQ l1 reg_X reg_Y) ;;;
      emit [HC (HJump n')] ;;; def_label l1 ;;; ret (n', dfl)
  | LDefault =>
      match dfl with
      | Some _ => fail
      | None => l <- alloc_label ;; def_label l ;;; ret (nxt, Some l)
      end
  end.
Fixpoint codegen_labels (loc : list bnd) (st : Z * option Z) (l : list lbl) : M (Z * option Z) :=
  match l with [] => ret st | lb :: l => st <- codegen_label loc st lb ;; codegen_labels loc st l end.
Fixpoint codegen_statement (loc : list bnd) (c : stmt) : M unit :=
  match c with
  | SSkip => ret tt
  | SExpr e => codegen_rvalue loc e ;;; pop reg_X ;;; grow_fs (-1)
  | SIf e s1 s2 =>
      l1 <- alloc_label ;; l2 <- alloc_label ;; test loc e EQ l1 ;;; codegen_statement loc s1 ;;; emit [HC (HJump l2)] ;;;
      def_label l1 ;;; codegen_statement loc s2 ;;; def_label l2
  | SWhile e b =>
      l1 <- alloc_label ;; l2 <- alloc_label ;; fs <- get_fs ;;
      let loc' := BLoop fs l2 l1 :: loc in
      def_label l1 ;;; test loc' e EQ l2 ;;; codegen_statement loc' b ;;; emit [HC (HJump l1)] ;;; def_label l2 ;;; set_fs fs
  | SFor i t st b =>
      l1 <- alloc_label ;; l2 <- alloc_label ;; l3 <- alloc_label ;; fs <- get_fs ;;
      let loc' := BLoop fs l2 l1 :: loc in
      codegen_opt loc' i ;;; emit [HC (HJump l3)] ;;; def_label l1 ;;; codegen_opt loc' st ;;; def_label l3 ;;;
      match t with Some t => test loc' t EQ l2 | None => ret tt end ;;;
      codegen_statement loc' b ;;; emit [HC (HJump l1)] ;;; def_label l2 ;;; set_fs fs
  | SDo b e =>
      l1 <- alloc_label ;; l2 <- alloc_label ;; fs <- get_fs ;;
      let loc' := BLoop fs l2 l1 :: loc in
      def_label l1 ;;; codegen_statement loc' b ;;; test loc' e NE l1 ;;; def_label l2 ;;; set_fs fs
  | SSwitch e l =>
      fs <- get_fs ;; l1 <- alloc_label ;; l2 <- alloc_label ;;
      let loc' := BSwitch fs l1 :: loc in
      codegen_rvalue loc' e ;;; emit [HC (HJump l2)] ;;;
      (* the body is a block: codegen_body *)
      (fs1 <- get_fs ;; st <- codegen_swl loc' (l2, None) l ;; fs2 <- get_fs ;; grow_stack (fs1 - fs2) ;;; set_fs fs1 ;;;
       l3 <- alloc_label ;; emit [HC (HJump l3)] ;;; def_label (fst st) ;;;
       match snd st with Some d => emit [HC (HJump d)] | None => ret tt end ;;;
       def_label l3 ;;; grow_stack (-1) ;;; grow_fs (-1) ;;; def_label l1 ;;; set_fs fs)
  | SBreak => match encl_any loc with
              | Some (bfs, bl) => fs <- get_fs ;; grow_stack (bfs - fs) ;;; emit [HC (HJump bl)]
              | None => fail end
  | SContinue => match encl_loop loc with
                 | Some (bfs, bl) => fs <- get_fs ;; grow_stack (bfs - fs) ;;; emit [HC (HJump bl)]
                 | None => fail end
  | SReturn e => codegen_opt loc e ;;; fs <- get_fs ;; grow_stack (- fs) ;;; emit [HC HRet]
  | SBlock l => fs1 <- get_fs ;; codegen_items loc l ;;; fs2 <- get_fs ;; grow_stack (fs1 - fs2) ;;; set_fs fs1
  end
with codegen_items (loc : list bnd) (l : items) : M unit :=
  match l with
  | INil => ret tt
  | IStmt c l => codegen_statement loc c ;;; codegen_items loc l
  | IDecl x t i l =>
      grow_fs (local_size t) ;;; fs <- get_fs ;;
      let loc' := BLocal x fs t :: loc in
      grow_stack (local_size t) ;;;
      match i with
      | None => ret tt
      | Some e => if is_agg t then fail else
                  codegen_rvalue loc' e ;;; pop reg_X ;;; grow_fs (-1) ;;; write_mem_location reg_SP 0 reg_X (type_width t true false)
      end ;;;
      codegen_items loc' l
  end
with codegen_swl (loc : list bnd) (st : Z * option Z) (l : swl) : M (Z * option Z) :=
  match l with
  | WNil => ret st
  | WCons labs c l => st <- codegen_labels loc st labs ;; codegen_statement loc c ;;; codegen_swl loc st l
  end.

(** exe.c:2348-2365 [add_params]; exe.c:2402-2416: the body of a function, in a frame of its own. *)
Fixpoint add_params (ps : list (Z * ty)) (fs : Z) (loc : list bnd) : option (list bnd) :=
  match ps with
  | [] => Some loc
  | (x, t) :: ps =>
      let t := match t with TArr t _ => TPtr t | _ => t end in
      match look_loc x loc with
      | Some _ => None
      | None => add_params ps (fs - type_width t false true / W) (BParam x fs t :: loc)
      end
  end.
Definition codegen_fun (lb : Z) (ps : list (Z * ty)) (body : items) : M unit :=
  def_label lb ;;; loc <- lift (add_params ps (-1) []) ;; set_fs 0 ;;;
  codegen_statement loc (SBlock body) ;;; fs <- get_fs ;; grow_stack (- fs) ;;; set_fs 0 ;;; emit [HC HRet].
End G.
