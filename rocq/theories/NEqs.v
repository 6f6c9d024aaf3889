(** * Unfolding equations for the mutually recursive functions (generated from their definitions)

    Each [X_body] is the right-hand side of the definition of [X], copied; the lemma says they agree. *)
From Coq Require Import ZArith List Lia Bool.
From Verif Require Import Base Asm X86Sem X86 X86Proof NMach NPtr CLang NGen NSupp.
Import ListNotations.
Open Scope Z_scope.

Section GE.
Variables (W : Z) (glo : list gbnd) (loc : list bnd).

Definition codegen_rvalue_body (e : expr) : M unit :=
  (match e with
   | ELit z => movi reg_X z ;;; push reg_X
   | EChr z => movi reg_X z ;;; push reg_X
   | EVar x =>
       match look_loc x loc with
       | Some (BParam _ off t) =>
           fs <- get_fs ;; movi reg_X ((fs - off) * W) ;;; alu2 Aadd reg_X reg_SP ;;;
           (if is_struct t then ret tt else load_mem_location W reg_X reg_X 0 (type_width W t false false) (is_sgn t)) ;;; push reg_X
       | Some (BLocal _ off t) =>
           fs <- get_fs ;; movi reg_X ((fs - off) * W) ;;; alu2 Aadd reg_X reg_SP ;;;
           (if is_agg t then ret tt else load_mem_location W reg_X reg_X 0 (type_width W t false false) (is_sgn t)) ;;; push reg_X
       | Some _ => fail
       | None =>
           match look_glo x glo with
           | Some (off, t) =>
               movi reg_X off ;;; alu2 Aadd reg_X reg_glo ;;;
               (if is_agg t then ret tt else load_mem_location W reg_X reg_X 0 (type_width W t false false) (is_sgn t)) ;;; push reg_X
           | None => fail
           end
       end
   | EDeref e =>
       t <- lift (vt glo loc e) ;; codegen_rvalue W glo loc e ;;; grow_fs (-1) ;;;
       (if is_ptr t then
          pop reg_X ;;; (w <- lift (ref_type_width W t) ;; d <- lift (deref_ty t) ;; load_mem_location W reg_X reg_X 0 w (is_sgn d)) ;;;
          push reg_X
        else fail)
   | EPlus e | EPar e => codegen_rvalue W glo loc e ;;; grow_fs (-1)
   | ENeg e => codegen_rvalue W glo loc e ;;; pop reg_Y ;;; grow_fs (-1) ;;; alu2 Axor reg_X reg_X ;;; alu2 Asub reg_X reg_Y ;;; push reg_X
   | EBnot e => codegen_rvalue W glo loc e ;;; pop reg_Y ;;; grow_fs (-1) ;;; movi reg_X (-1) ;;; alu2 Axor reg_X reg_Y ;;; push reg_X
   | ENot e => alu2 Axor reg_X reg_X ;;; push reg_X ;;; grow_fs 1 ;;; codegen_rvalue W glo loc e ;;;
               lbinop W Eq (Some (TInt 4 true)) (vt glo loc e) ;;; grow_fs (-2)
   | EInc true up e =>
       w <- codegen_lvalue W glo loc e ;; pop reg_Y ;;;
       (t <- lift (vt glo loc e) ;; load_mem_location W reg_X reg_Y 0 w (is_sgn t)) ;;;
       push reg_X ;;; push reg_Y ;;; push reg_X ;;; movi reg_X 1 ;;; push reg_X ;;;
       lbinop W (if up then Add else Sub) (vt glo loc e) (Some (TInt 4 true)) ;;;
       pop reg_X ;;; pop reg_Y ;;; grow_fs (-1) ;;; write_mem_location W reg_Y 0 reg_X w
   | EInc false up e =>
       w <- codegen_lvalue W glo loc e ;; pop reg_Y ;;; push reg_Y ;;;
       (t <- lift (vt glo loc e) ;; load_mem_location W reg_X reg_Y 0 w (is_sgn t)) ;;;
       push reg_X ;;; movi reg_X 1 ;;; push reg_X ;;;
       lbinop W (if up then Add else Sub) (vt glo loc e) (Some (TInt 4 true)) ;;;
       pop reg_X ;;; pop reg_Y ;;; grow_fs (-1) ;;; write_mem_location W reg_Y 0 reg_X w ;;; push reg_X
   | EAddr e => codegen_lvalue W glo loc e ;;; grow_fs (-1)
   | ESizeT t => movi reg_X (type_width W t true false) ;;; push reg_X
   | ESizeE e => (t <- lift (vt glo loc e) ;; movi reg_X (type_width W t true false)) ;;; push reg_X
   | EBin o a b => codegen_rvalue W glo loc a ;;; codegen_rvalue W glo loc b ;;; lbinop W o (vt glo loc a) (vt glo loc b) ;;; grow_fs (-2)
   | EIdx a b => codegen_rvalue W glo loc a ;;; codegen_rvalue W glo loc b ;;;
                 (t1 <- lift (vt glo loc a) ;; t2 <- lift (vt glo loc b) ;; codegen_index W t1 t2) ;;; grow_fs (-2)
   | EComma a b => codegen_rvalue W glo loc a ;;; codegen_rvalue W glo loc b ;;; codegen_comma ;;; grow_fs (-2)
   | EAsg a b =>
       t <- lift (vt glo loc a) ;; w <- codegen_lvalue W glo loc a ;;
       (if is_struct t then
          codegen_lvalue W glo loc b ;;; pop reg_X ;;; pop reg_Y ;;; grow_fs (-2) ;;; emit (copy_obj W reg_Y reg_X w)
        else
          codegen_rvalue W glo loc b ;;; pop reg_X ;;; pop reg_Y ;;; grow_fs (-2) ;;; write_mem_location W reg_Y 0 reg_X w) ;;; push reg_X
   | EOpAsg o a b =>
       w <- codegen_lvalue W glo loc a ;; pop reg_Y ;;; push reg_Y ;;;
       (t <- lift (vt glo loc a) ;; load_mem_location W reg_X reg_Y 0 w (is_sgn t)) ;;;
       push reg_X ;;; grow_fs 1 ;;; codegen_rvalue W glo loc b ;;; lbinop W o (vt glo loc a) (vt glo loc b) ;;;
       pop reg_X ;;; pop reg_Y ;;; grow_fs (-3) ;;; write_mem_location W reg_Y 0 reg_X w ;;; push reg_X
   | EAnd a b => l1 <- alloc_label ;; codegen_rvalue W glo loc a ;;; pop reg_X ;;; push reg_X ;;; alu2 Axor reg_Y reg_Y ;;;
                 emit (h_jump_cond_reg_reg EQ l1 reg_X reg_Y) ;;; pop reg_X ;;; grow_fs (-1) ;;; codegen_rvalue W glo loc b ;;; grow_fs (-1) ;;;
                 def_label l1
   | EOr a b => l1 <- alloc_label ;; codegen_rvalue W glo loc a ;;; pop reg_X ;;; push reg_X ;;; alu2 Axor reg_Y reg_Y ;;;
                emit (h_jump_cond_reg_reg NE l1 reg_X reg_Y) ;;; pop reg_X ;;; grow_fs (-1) ;;; codegen_rvalue W glo loc b ;;; grow_fs (-1) ;;;
                def_label l1
   | ECall f l =>
       n <- codegen_params W glo loc l ;;
       match look_loc f loc, look_glo f glo, look_fun f glo with
       | None, None, Some (lb, _) => emit [HC (HCall lb)] ;;; grow_stack W (- n) ;;; grow_fs (- n) ;;; push reg_X
       | _, _, _ => fail
       end
   | ECast t e =>
       codegen_rvalue W glo loc e ;;;
       (te <- lift (vt glo loc e) ;;
        if type_width W t false false <? type_width W te false false then
          load_mem_location W reg_X reg_SP 0 (type_width W t false false) (is_sgn t) ;;; grow_stack W (-1) ;;; push reg_X
        else ret tt) ;;;
       grow_fs (-1)
   | ECond c a b =>
       l1 <- alloc_label ;; l2 <- alloc_label ;; codegen_rvalue W glo loc c ;;; pop reg_X ;;; grow_fs (-1) ;;; alu2 Axor reg_Y reg_Y ;;;
       emit (h_jump_cond_reg_reg EQ l1 reg_X reg_Y) ;;; codegen_rvalue W glo loc a ;;; emit [HC (HJump l2)] ;;; def_label l1 ;;;
       grow_fs (-1) ;;; codegen_rvalue W glo loc b ;;; grow_fs (-1) ;;; def_label l2
   | EDot e m => t <- lift (vt glo loc e) ;; (if is_struct t then codegen_lvalue W glo loc e ;;; pop reg_Y ;;; grow_fs (-1) ;;; codegen_mval W glo t m else fail)
   | EArrow e m => t <- lift (vt glo loc e) ;; t <- lift (arrow_type t) ;; (if is_struct t then codegen_rvalue W glo loc e ;;; pop reg_Y ;;; grow_fs (-1) ;;; codegen_mval W glo t m else fail)
   end) ;;; grow_fs 1.

Lemma codegen_rvalue_eq e : codegen_rvalue W glo loc e = codegen_rvalue_body e. Proof. destruct e; reflexivity. Qed.

Definition codegen_lvalue_body (e : expr) : M Z :=
  w <- match e with
       | EVar x =>
           match look_loc x loc with
           | Some (BParam _ off t) | Some (BLocal _ off t) =>
               fs <- get_fs ;; movi reg_X ((fs - off) * W) ;;; alu2 Aadd reg_X reg_SP ;;; push reg_X ;;; ret (type_width W t true false)
           | Some _ => fail
           | None =>
               match look_glo x glo with
               | Some (off, t) => movi reg_X off ;;; alu2 Aadd reg_X reg_glo ;;; push reg_X ;;; ret (type_width W t true false)
               | None => fail
               end
           end
       | EDeref e => codegen_rvalue W glo loc e ;;; grow_fs (-1) ;;; (t <- lift (vt glo loc e) ;; lift (ref_type_width W t))
       | EPar e => w <- codegen_lvalue W glo loc e ;; grow_fs (-1) ;;; ret w
       | EIdx a b => t <- lift (vt glo loc a) ;; codegen_rvalue W glo loc a ;;; codegen_rvalue W glo loc b ;;; lbinop W Add (vt glo loc a) (vt glo loc b) ;;; grow_fs (-2) ;;;
                     lift (ref_type_width W t)
       | EDot e m => t <- lift (vt glo loc e) ;; (if is_struct t then codegen_lvalue W glo loc e ;;; pop reg_X ;;; codegen_maddr W glo t m else fail)
       | EArrow e m => t <- lift (vt glo loc e) ;; t <- lift (arrow_type t) ;; (if is_struct t then codegen_rvalue W glo loc e ;;; pop reg_X ;;; codegen_maddr W glo t m else fail)
       | _ => fail
       end ;;
  (if w =? 0 then fail else grow_fs 1 ;;; ret w).

Lemma codegen_lvalue_eq e : codegen_lvalue W glo loc e = codegen_lvalue_body e. Proof. destruct e; reflexivity. Qed.

Definition codegen_params_body (l : args) : M Z :=
  match l with
  | ANil => ret 0
  | ACons e l => n <- codegen_params W glo loc l ;; codegen_rvalue W glo loc e ;;; (t <- lift (vt glo loc e) ;; if is_struct t then fail else ret (n + type_width W t false true / W))
  end.

Lemma codegen_params_eq l : codegen_params W glo loc l = codegen_params_body l. Proof. destruct l; reflexivity. Qed.

End GE.

Section GS.
Variables (W : Z) (glo : list gbnd).

Definition codegen_statement_body (loc : list bnd) (c : stmt) : M unit :=
  match c with
  | SSkip => ret tt
  | SExpr e => codegen_rvalue W glo loc e ;;; pop reg_X ;;; grow_fs (-1)
  | SIf e s1 s2 =>
      l1 <- alloc_label ;; l2 <- alloc_label ;; test W glo loc e EQ l1 ;;; codegen_statement W glo loc s1 ;;; emit [HC (HJump l2)] ;;;
      def_label l1 ;;; codegen_statement W glo loc s2 ;;; def_label l2
  | SWhile e b =>
      l1 <- alloc_label ;; l2 <- alloc_label ;; fs <- get_fs ;;
      let loc' := BLoop fs l2 l1 :: loc in
      def_label l1 ;;; test W glo loc' e EQ l2 ;;; codegen_statement W glo loc' b ;;; emit [HC (HJump l1)] ;;; def_label l2 ;;; set_fs fs
  | SFor i t st b =>
      l1 <- alloc_label ;; l2 <- alloc_label ;; l3 <- alloc_label ;; fs <- get_fs ;;
      let loc' := BLoop fs l2 l1 :: loc in
      codegen_opt W glo loc' i ;;; emit [HC (HJump l3)] ;;; def_label l1 ;;; codegen_opt W glo loc' st ;;; def_label l3 ;;;
      match t with Some t => test W glo loc' t EQ l2 | None => ret tt end ;;;
      codegen_statement W glo loc' b ;;; emit [HC (HJump l1)] ;;; def_label l2 ;;; set_fs fs
  | SDo b e =>
      l1 <- alloc_label ;; l2 <- alloc_label ;; fs <- get_fs ;;
      let loc' := BLoop fs l2 l1 :: loc in
      def_label l1 ;;; codegen_statement W glo loc' b ;;; test W glo loc' e NE l1 ;;; def_label l2 ;;; set_fs fs
  | SSwitch e l =>
      fs <- get_fs ;; l1 <- alloc_label ;; l2 <- alloc_label ;;
      let loc' := BSwitch fs l1 :: loc in
      codegen_rvalue W glo loc' e ;;; emit [HC (HJump l2)] ;;;
      (* the body is a block: codegen_body *)
      (fs1 <- get_fs ;; st <- codegen_swl W glo loc' (l2, None) l ;; fs2 <- get_fs ;; grow_stack W (fs1 - fs2) ;;; set_fs fs1 ;;;
       l3 <- alloc_label ;; emit [HC (HJump l3)] ;;; def_label (fst st) ;;;
       match snd st with Some d => emit [HC (HJump d)] | None => ret tt end ;;;
       def_label l3 ;;; grow_stack W (-1) ;;; grow_fs (-1) ;;; def_label l1 ;;; set_fs fs)
  | SBreak => match encl_any loc with
              | Some (bfs, bl) => fs <- get_fs ;; grow_stack W (bfs - fs) ;;; emit [HC (HJump bl)]
              | None => fail end
  | SContinue => match encl_loop loc with
                 | Some (bfs, bl) => fs <- get_fs ;; grow_stack W (bfs - fs) ;;; emit [HC (HJump bl)]
                 | None => fail end
  | SReturn e => codegen_opt W glo loc e ;;; fs <- get_fs ;; grow_stack W (- fs) ;;; emit [HC HRet]
  | SBlock l => fs1 <- get_fs ;; codegen_items W glo loc l ;;; fs2 <- get_fs ;; grow_stack W (fs1 - fs2) ;;; set_fs fs1
  end.

Lemma codegen_statement_eq loc c : codegen_statement W glo loc c = codegen_statement_body loc c. Proof. destruct c; reflexivity. Qed.

Definition codegen_items_body (loc : list bnd) (l : items) : M unit :=
  match l with
  | INil => ret tt
  | IStmt c l => codegen_statement W glo loc c ;;; codegen_items W glo loc l
  | IDecl x t i l =>
      grow_fs (local_size W t) ;;; fs <- get_fs ;;
      let loc' := BLocal x fs t :: loc in
      grow_stack W (local_size W t) ;;;
      match i with
      | None => ret tt
      | Some e => if is_agg t then fail else
                  codegen_rvalue W glo loc' e ;;; pop reg_X ;;; grow_fs (-1) ;;; write_mem_location W reg_SP 0 reg_X (type_width W t true false)
      end ;;;
      codegen_items W glo loc' l
  end.

Lemma codegen_items_eq loc l : codegen_items W glo loc l = codegen_items_body loc l. Proof. destruct l; reflexivity. Qed.

Definition codegen_swl_body (loc : list bnd) (st : Z * option Z) (l : swl) : M (Z * option Z) :=
  match l with
  | WNil => ret st
  | WCons labs c l => st <- codegen_labels W glo loc st labs ;; codegen_statement W glo loc c ;;; codegen_swl W glo loc st l
  end.

Lemma codegen_swl_eq loc st l : codegen_swl W glo loc st l = codegen_swl_body loc st l. Proof. destruct l; reflexivity. Qed.

End GS.

Section SE.
Variables (W : Z) (funs : cdecls) (G : list (Z * ty)).

Definition supp_body (m : mode) (e : expr) : bool :=
  let k := match m with Mod k => k | Truth => W end in
  match e with
  | ELit _ | EChr _ => true
  | EVar x => match lookupZ G x with Some t => wfty W t | None => false end
  | EPar e => supp W funs G m e
  | EDeref e => match ty2 W funs G e with
                | Some (c, v) => compat c v && match target c with Some t => scalar t | None => false end && supp W funs G (Mod W) e
                | None => false end
  | EAddr e => slv W funs G e
  | EPlus e => match ty2 W funs G e with Some (TInt _ _, v) => isint v && supp W funs G (Mod k) e | _ => false end
  | ENeg e | EBnot e =>
      match ty2 W funs G e with
      | Some (TInt n s, v) => isint v && (sgnd (promote (TInt n s)) || (k <=? csize W (promote (TInt n s)))) && supp W funs G (Mod k) e
      | _ => false end
  | ENot e => match ty2 W funs G e with Some _ => supp W funs G Truth e | None => false end
  | EInc post up e =>
      match ty2 W funs G e with
      | Some (c, v) =>
          let k' := if post then csize W c else Z.max k (csize W c) in
          let o := if up then Add else Sub in
          scalar c && ty_eqb c v && slv W funs G e &&
          match btype W o c tint, bmodes W o k' c tint v tint with
          | Some rt, Some _ => post || conv_ok W k rt c
          | _, _ => false
          end
      | None => false
      end
  | ESizeT t => wfty W t && (csize W t <? 2 ^ 31)
  | ESizeE e => match ty2 W funs G e with Some (c, v) => (csize W c =? csize W v) && (csize W c <? 2 ^ 31) | None => false end
  | EBin o a b =>
      match ty2 W funs G a, ty2 W funs G b with
      | Some (t1, v1), Some (t2, v2) =>
          match bmodes W o k t1 t2 v1 v2 with Some (m1, m2) => supp W funs G m1 a && supp W funs G m2 b | None => false end
      | _, _ => false
      end
  | EIdx a b => match ty2 W funs G a, ty2 W funs G b with
                | Some (t1, v1), Some (t2, v2) =>
                    match bmodes W Add W t1 t2 v1 v2, btype W Add t1 t2 with
                    | Some _, Some t => match target t with Some t => scalar t | None => false end && supp W funs G (Mod W) a && supp W funs G (Mod W) b
                    | _, _ => false end
                | _, _ => false
                end
  | EComma a b => supp W funs G (Mod 0) a && match ctype W funs G b with Some t => wfty W t && negb (is_arr t) | None => false end && supp W funs G m b
  | EAsg a b =>
      match ty2 W funs G a, ty2 W funs G b with
      | Some (c, v), Some (t2, v2) =>
          if is_struct c then (k =? 0) && ty_eqb c v && ty_eqb c t2 && ty_eqb c v2 && slv W funs G a && slv W funs G b else
          scalar c && ty_eqb c v && (isint t2 || is_ptr t2) && slv W funs G a && conv_ok W k t2 c && supp W funs G (Mod (Z.max k (csize W c))) b
      | _, _ => false
      end
  | EOpAsg o a b =>
      match ty2 W funs G a, ty2 W funs G b with
      | Some (c, v), Some (t2, v2) =>
          scalar c && ty_eqb c v && slv W funs G a && negb (is_cmp o) &&
          match btype W o c t2, bmodes W o (Z.max k (csize W c)) c t2 v v2 with
          | Some rt, Some (_, m2) => conv_ok W k rt c && supp W funs G m2 b
          | _, _ => false
          end
      | _, _ => false
      end
  | EAnd a b => supp W funs G Truth a && match m with Truth => supp W funs G Truth b | Mod k => ((k =? 0) || boolish b) && supp W funs G (Mod k) b end
  | EOr a b => match m with Truth => supp W funs G Truth a && supp W funs G Truth b
               | Mod k => if k =? 0 then supp W funs G Truth a && supp W funs G (Mod 0) b else boolish a && boolish b && supp W funs G (Mod W) a && supp W funs G (Mod k) b end
  | ECall f l =>
      match funs f with
      | Some (FUser ps r _) => sargs W funs G (map snd ps) l && match r with TVoid => k =? 0 | _ => wfty W r && scalar r end
      | Some FPutchar => sargs W funs G [TInt 1 true] l && (k <=? 1)
      | Some FGetchar => sargs W funs G [] l
      | None => false
      end
  | ECast t e =>
      match ty2 W funs G e with
      | Some (c, v) =>
          wfty W t && scalar t && (isint c || is_ptr c) && negb (is_struct v) &&
          if width_of W t false <? width_of W v false then supp W funs G (Mod (csize W t)) e
          else conv_ok W k c t && supp W funs G (Mod k) e
      | None => false
      end
  | ECond c a b =>
      match ctype W funs G (ECond c a b), ctype W funs G a, ctype W funs G b with
      | Some t, Some t1, Some t2 => wfty W t && scalar t && (isint t1 || is_ptr t1) && (isint t2 || is_ptr t2) && wfty W t1 && wfty W t2 &&
          supp W funs G Truth c && conv_ok W k t1 t && conv_ok W k t2 t && supp W funs G (Mod k) a && supp W funs G (Mod k) b
      | _, _, _ => false
      end
  | EDot e m => match ty2 W funs G e with Some (c, v) => ty_eqb c v && smem W funs c m && slv W funs G e | None => false end
  | EArrow e m => match ty2 W funs G e with Some (TPtr c, TPtr v) => ty_eqb c v && smem W funs c m && supp W funs G (Mod W) e | _ => false end
  end.

Lemma supp_eq m e : supp W funs G m e = supp_body m e. Proof. destruct e; reflexivity. Qed.

Definition slv_body (e : expr) : bool :=
  match e with
  | EVar x => match lookupZ G x with Some t => wfty W t | None => false end
  | EPar e => slv W funs G e
  | EDeref e => match ty2 W funs G e with
                | Some (c, v) => compat c v && supp W funs G (Mod W) e
                | None => false end
  | EIdx a b => match ty2 W funs G a, ty2 W funs G b with
                | Some (t1, v1), Some (t2, v2) =>
                    is_ptr v1 && match bmodes W Add W t1 t2 v1 v2 with
                    | Some _ => supp W funs G (Mod W) a && supp W funs G (Mod W) b
                    | None => false end
                | _, _ => false
                end
  | EDot e m => match ty2 W funs G e with Some (c, v) => ty_eqb c v && smem W funs c m && slv W funs G e | None => false end
  | EArrow e m => match ty2 W funs G e with Some (TPtr c, TPtr v) => ty_eqb c v && smem W funs c m && supp W funs G (Mod W) e | _ => false end
  | _ => false
  end.

Lemma slv_eq e : slv W funs G e = slv_body e. Proof. destruct e; reflexivity. Qed.

Definition sargs_body (ts : list ty) (l : args) : bool :=
  match ts, l with
  | [], ANil => true
  | t :: ts, ACons e l => wfty W t && scalar t && match ty2 W funs G e with Some (c, _) => isint c || is_ptr c | None => false end &&
                          supp W funs G (Mod (csize W t)) e && sargs W funs G ts l
  | _, _ => false
  end.

Lemma sargs_eq ts l : sargs W funs G ts l = sargs_body ts l. Proof. destruct l, ts; reflexivity. Qed.

End SE.

Section SS.
Variables (W : Z) (funs : cdecls).

Definition ss_body (G : list (Z * ty)) (rt : ty) (cont : bool) (c : stmt) : bool :=
  match c with
  | SSkip | SBreak => true
  | SContinue => cont
  | SExpr e => supp W funs G (Mod 0) e
  | SIf e s1 s2 => supp W funs G Truth e && ss W funs G rt cont s1 && ss W funs G rt cont s2
  | SWhile e s => supp W funs G Truth e && ss W funs G rt true s
  | SDo s e => supp W funs G Truth e && ss W funs G rt false s
  | SFor i t st s => sopt W funs G i && sopt W funs G st && match t with Some t => supp W funs G Truth t | None => true end && ss W funs G rt true s
  | SSwitch e l => match ctype W funs G e with Some (TInt n s) => wfty W (TInt n s) && supp W funs G (Mod W) e && sw W funs G rt cont (TInt n s) l | _ => false end
  | SReturn None => match rt with TVoid => true | _ => false end
  | SReturn (Some e) => match rt, ctype W funs G e with
                        | TVoid, _ | _, None => false
                        | _, Some t => (isint t || is_ptr t) && wfty W t && wfty W rt && scalar rt && conv_ok W W t rt && supp W funs G (Mod W) e
                        end
  | SBlock l => si W funs G rt cont l
  end.

Lemma ss_eq G rt cont c : ss W funs G rt cont c = ss_body G rt cont c. Proof. destruct c; reflexivity. Qed.

Definition si_body (G : list (Z * ty)) (rt : ty) (cont : bool) (l : items) : bool :=
  match l with
  | INil => true
  | IStmt c l => ss W funs G rt cont c && si W funs G rt cont l
  | IDecl x t i l =>
      wfty W t && (scalar t || is_agg t) &&
      match i with None => true
      | Some e => scalar t && match ctype W funs ((x, t) :: G) e with Some t2 => (isint t2 || is_ptr t2) | None => false end &&
                  supp W funs ((x, t) :: G) (Mod (csize W t)) e end &&
      si W funs ((x, t) :: G) rt cont l
  end.

Lemma si_eq G rt cont l : si W funs G rt cont l = si_body G rt cont l. Proof. destruct l; reflexivity. Qed.

Definition sw_body (G : list (Z * ty)) (rt : ty) (cont : bool) (t : ty) (l : swl) : bool :=
  match l with
  | WNil => true
  | WCons labs c l => slabs W t labs && ss W funs G rt cont c && sw W funs G rt cont t l
  end.

Lemma sw_eq G rt cont t l : sw W funs G rt cont t l = sw_body G rt cont t l. Proof. destruct l; reflexivity. Qed.

End SS.

Section CE.
Variables (W : Z) (funs : cdecls) (gvars : list (Z * (Z * ty))).

Definition ce_body (n : nat) (E : env) (e : expr) (s : cst) (Q : Z -> cst -> Prop) : Prop :=
  
  let ct e := ctype W funs (tys (vars E)) e in
  match e with
  | ELit z => 0 <= z < 2 ^ 31 /\ Q z s
  | EChr z => 0 <= z < 128 /\ Q z s
  | EVar _ | EDeref _ | EIdx _ _ | EDot _ _ | EArrow _ _ =>
      match ct e with Some t => cl W funs gvars n E e s (fun a s => reads W E t a s Q) | None => False end
  | EPar e => ce W funs gvars n E e s Q
  | EAddr e => cl W funs gvars n E e s Q
  | EPlus e => match ct e with Some (TInt _ _) => ce W funs gvars n E e s Q | _ => False end
  | ENeg e => match ct e with
              | Some (TInt k sg) => ce W funs gvars n E e s (fun v s => oq (fit W (promote (TInt k sg)) (- v)) Q s) | _ => False end
  | EBnot e => match ct e with
               | Some (TInt k sg) => ce W funs gvars n E e s (fun v s => oq (fit W (promote (TInt k sg)) (- v - 1)) Q s) | _ => False end
  | ENot e => ce W funs gvars n E e s (fun v s => Q (b2i (v =? 0)) s)
  | EInc post up e =>
      match ct e with
      | Some t => cl W funs gvars n E e s (fun a s => reads W E t a s (fun v s =>
          oq (bval W (if up then Add else Sub) t tint v 1) (fun v' s => writes W E t a v' s (fun s => Q (if post then v else conv W t v') s)) s))
      | None => False
      end
  | ESizeT t => Q (csize W t) s
  | ESizeE e => match ct e with Some t => Q (csize W t) s | None => False end
  | EBin o a b =>
      match ct a, ct b with
      | Some t1, Some t2 => ce W funs gvars n E a s (fun x s => ce W funs gvars n E b s (fun y s => oq (bval W o t1 t2 x y) Q s))
      | _, _ => False
      end
  | EComma a b => ce W funs gvars n E a s (fun _ s => ce W funs gvars n E b s Q)
  | EAsg a b =>
      match ct a with
      | Some (TStruct u id n') => ct b = Some (TStruct u id n') /\ cl W funs gvars n E a s (fun p s => cl W funs gvars n E b s (fun q s => copies W E p q n' s (fun s => Q 0 s)))
      | Some t => cl W funs gvars n E a s (fun p s => ce W funs gvars n E b s (fun v s => writes W E t p v s (fun s => Q (conv W t v) s)))
      | None => False
      end
  | EOpAsg o a b =>
      match ct a, ct b with
      | Some t, Some t2 => cl W funs gvars n E a s (fun p s => reads W E t p s (fun x s => ce W funs gvars n E b s (fun y s =>
          oq (bval W o t t2 x y) (fun v s => writes W E t p v s (fun s => Q (conv W t v) s)) s)))
      | _, _ => False
      end
  | EAnd a b => ce W funs gvars n E a s (fun x s => if x =? 0 then Q 0 s else ce W funs gvars n E b s (fun y s => Q (b2i (negb (y =? 0))) s))
  | EOr a b => ce W funs gvars n E a s (fun x s => if x =? 0 then ce W funs gvars n E b s (fun y s => Q (b2i (negb (y =? 0))) s) else Q 1 s)
  | ECall f l => cargs W funs gvars n E l s (fun vs s => ccall W funs gvars n (live E) f vs s Q)
  | ECast t e => match ct e with Some _ => ce W funs gvars n E e s (fun v s => Q (conv W t v) s) | None => False end
  | ECond c a b => match ct (ECond c a b) with
                   | Some t => ce W funs gvars n E c s (fun x s => ce W funs gvars n E (if x =? 0 then b else a) s (fun v s => Q (conv W t v) s))
                   | None => False end
  end .

Lemma ce_eq n E e s Q : ce W funs gvars (S n) E e s Q = ce_body n E e s Q. Proof. reflexivity. Qed.

Lemma ce_0 E e s Q : ce W funs gvars O E e s Q -> False. Proof. intros H; exact H. Qed.

Definition cl_body (n : nat) (E : env) (e : expr) (s : cst) (Q : Z -> cst -> Prop) : Prop :=
  
  match e with
  | EVar x => match lookupZ (vars E) x with Some (a, _) => Q a s | None => False end
  | EPar e => cl W funs gvars n E e s Q
  | EDeref e => ce W funs gvars n E e s Q
  | EIdx a b =>
      match ctype W funs (tys (vars E)) a, ctype W funs (tys (vars E)) b with
      | Some t1, Some t2 => ce W funs gvars n E a s (fun x s => ce W funs gvars n E b s (fun y s => oq (bval W Add t1 t2 x y) Q s))
      | _, _ => False
      end
  | EDot e m => match ctype W funs (tys (vars E)) e with
                | Some t => cl W funs gvars n E e s (fun a s => oq (member_addr W funs t m a) Q s)
                | None => False end
  | EArrow e m => match option_map decay (ctype W funs (tys (vars E)) e) with
                  | Some (TPtr t) => ce W funs gvars n E e s (fun a s => oq (member_addr W funs t m a) Q s)
                  | _ => False end
  | _ => False
  end .

Lemma cl_eq n E e s Q : cl W funs gvars (S n) E e s Q = cl_body n E e s Q. Proof. reflexivity. Qed.

Lemma cl_0 E e s Q : cl W funs gvars O E e s Q -> False. Proof. intros H; exact H. Qed.

Definition cargs_body (n : nat) (E : env) (l : args) (s : cst) (Q : list Z -> cst -> Prop) : Prop :=
  
  match l with
  | ANil => Q [] s
  | ACons e l => cargs W funs gvars n E l s (fun vs s => ce W funs gvars n E e s (fun v s => Q (v :: vs) s))
  end .

Lemma cargs_eq n E l s Q : cargs W funs gvars (S n) E l s Q = cargs_body n E l s Q. Proof. reflexivity. Qed.

Lemma cargs_0 E l s Q : cargs W funs gvars O E l s Q -> False. Proof. intros H; exact H. Qed.

Definition ccall_body (n : nat) (L : list (Z * Z)) (f : Z) (vs : list Z) (s : cst) (Q : Z -> cst -> Prop) : Prop :=
  
  match funs f with
  | None => False
  | Some FPutchar => match vs with [v] => Q (v mod 256) (CS (cmem s) (cout s ++ [v mod 256]) (cin s)) | _ => False end
  | Some FGetchar =>
      match vs with
      | [] => match cin s with [] => Q (-1) s | c :: r => Q (c mod 256) (CS (cmem s) (cout s) r) end
      | _ => False
      end
  | Some (FUser ps ret body) =>
      bindp W ps vs gvars L (cmem s) (fun V L m =>
        ci W funs gvars n (Env V L) body (setmem s m) (fun o s =>
          match o with
          | OReturn v => Q (conv W ret v) s
          | ONormal => ret = TVoid /\ Q 0 s
          | _ => False
          end))
  end .

Lemma ccall_eq n L f vs s Q : ccall W funs gvars (S n) L f vs s Q = ccall_body n L f vs s Q. Proof. reflexivity. Qed.

Lemma ccall_0 L f vs s Q : ccall W funs gvars O L f vs s Q -> False. Proof. intros H; exact H. Qed.

Definition cs_body (n : nat) (E : env) (c : stmt) (s : cst) (Q : out -> cst -> Prop) : Prop :=
  
  let loop o s (again : cst -> Prop) :=
    match o with ONormal | OContinue => again s | OBreak => Q ONormal s | OReturn v => Q (OReturn v) s end in
  match c with
  | SSkip => Q ONormal s
  | SExpr e => ce W funs gvars n E e s (fun _ s => Q ONormal s)
  | SIf e s1 s2 => ce W funs gvars n E e s (fun v s => cs W funs gvars n E (if v =? 0 then s2 else s1) s Q)
  | SWhile e b => ce W funs gvars n E e s (fun v s => if v =? 0 then Q ONormal s else
                    cs W funs gvars n E b s (fun o s => loop o s (fun s => cs W funs gvars n E c s Q)))
  | SDo b e => cs W funs gvars n E b s (fun o s => loop o s (fun s => ce W funs gvars n E e s (fun v s =>
                 if v =? 0 then Q ONormal s else cs W funs gvars n E c s Q)))
  | SFor i t st b =>
      cs W funs gvars n E (match i with Some e => SExpr e | None => SSkip end) s (fun _ s => cfor W funs gvars n E t st b s Q)
  | SSwitch e l =>
      match ctype W funs (tys (vars E)) e with
      | Some (TInt _ _) =>
          ce W funs gvars n E e s (fun v s => cw W funs gvars n E (entry v l) s (fun o s => match o with OBreak => Q ONormal s | _ => Q o s end))
      | _ => False
      end
  | SBreak => Q OBreak s
  | SContinue => Q OContinue s
  | SReturn None => Q (OReturn 0) s
  | SReturn (Some e) => ce W funs gvars n E e s (fun v s => Q (OReturn v) s)
  | SBlock l => ci W funs gvars n E l s Q
  end .

Lemma cs_eq n E c s Q : cs W funs gvars (S n) E c s Q = cs_body n E c s Q. Proof. reflexivity. Qed.

Lemma cs_0 E c s Q : cs W funs gvars O E c s Q -> False. Proof. intros H; exact H. Qed.

Definition cfor_body (n : nat) (E : env) (t st : option expr) (b : stmt) (s : cst) (Q : out -> cst -> Prop) : Prop :=
  
  ce W funs gvars n E (match t with Some e => e | None => ELit 1 end) s (fun v s =>
    if v =? 0 then Q ONormal s else
    cs W funs gvars n E b s (fun o s =>
      match o with
      | ONormal | OContinue =>
          cs W funs gvars n E (match st with Some e => SExpr e | None => SSkip end) s (fun _ s => cfor W funs gvars n E t st b s Q)
      | OBreak => Q ONormal s
      | OReturn v => Q (OReturn v) s
      end))
  .

Lemma cfor_eq n E t st b s Q : cfor W funs gvars (S n) E t st b s Q = cfor_body n E t st b s Q. Proof. reflexivity. Qed.

Lemma cfor_0 E t st b s Q : cfor W funs gvars O E t st b s Q -> False. Proof. intros H; exact H. Qed.

Definition ci_body (n : nat) (E : env) (l : items) (s : cst) (Q : out -> cst -> Prop) : Prop :=
  
  match l with
  | INil => Q ONormal s
  | IStmt c l => cs W funs gvars n E c s (fun o s => match o with ONormal => ci W funs gvars n E l s Q | _ => Q o s end)
  | IDecl x t i l =>
      0 < csize W t /\
      forall a, fresh W (live E) a (csize W t) -> forall m, bytes_ok m ->
        (forall y, ~ (a <= y < a + csize W t) -> m y = cmem s y) ->
        let E' := Env ((x, (a, t)) :: vars E) ((a, csize W t) :: live E) in
        match i with
        | None => ci W funs gvars n E' l (setmem s m) Q
        | Some e => ce W funs gvars n E' e (setmem s m) (fun v s => writes W E' t a v s (fun s => ci W funs gvars n E' l s Q))
        end
  end .

Lemma ci_eq n E l s Q : ci W funs gvars (S n) E l s Q = ci_body n E l s Q. Proof. reflexivity. Qed.

Lemma ci_0 E l s Q : ci W funs gvars O E l s Q -> False. Proof. intros H; exact H. Qed.

Definition cw_body (n : nat) (E : env) (l : swl) (s : cst) (Q : out -> cst -> Prop) : Prop :=
  
  match l with
  | WNil => Q ONormal s
  | WCons _ c l => cs W funs gvars n E c s (fun o s => match o with ONormal => cw W funs gvars n E l s Q | _ => Q o s end)
  end .

Lemma cw_eq n E l s Q : cw W funs gvars (S n) E l s Q = cw_body n E l s Q. Proof. reflexivity. Qed.

Lemma cw_0 E l s Q : cw W funs gvars O E l s Q -> False. Proof. intros H; exact H. Qed.

End CE.
