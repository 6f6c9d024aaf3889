(** * The fragment of C for which pnut's native code is proved correct (C34, C35)

    A static check on the program text.  Everything outside it is either not modelled or shown to be miscompiled (see
    PropNative).  The mode says how much of the value is needed: its residue modulo [2^(8k)] ([Mod 0]: nothing,
    [Mod W]: the whole word) or only whether it is zero. *)
From Coq Require Import ZArith List Lia Bool.
From Verif Require Import Base X86Sem NMach NPtr CLang NGen.
Import ListNotations.
Open Scope Z_scope.

Inductive mode := Mod (k : Z) | Truth.

Fixpoint ty_eqb (a b : ty) : bool :=
  match a, b with
  | TInt n s, TInt n' s' => (n =? n') && Bool.eqb s s'
  | TPtr a, TPtr b => ty_eqb a b
  | TArr a n, TArr b n' => ty_eqb a b && (n =? n')
  | TVoid, TVoid => true
  | TStruct u i n, TStruct u' i' n' => Bool.eqb u u' && (i =? i') && (n =? n')
  | _, _ => false
  end.

Section S.
Variable W : Z.
Variable funs : cdecls.

(** The types pnut records for functions (exe.c:1717-1719: putchar has type void(char), getchar char()). *)
Definition ftab (f : Z) : option ty :=
  match funs f with
  | Some (FUser _ r _) => Some r | Some FPutchar => Some TVoid | Some FGetchar => Some (TInt 1 true) | None => None end.

Definition mtab (id m : Z) : option ty := match dmem funs id m with Some (_, t) => Some t | None => None end.

Fixpoint wfty (t : ty) : bool :=
  match t with
  | TInt n _ => (n =? 1) || (n =? 2) || (n =? 4) || ((n =? 8) && (W =? 8))
  | TPtr t => wfty t && negb (is_arr t)
  | TArr t n => wfty t && (scalar t || is_struct t) && (0 <? n) && (n * csize W t <? 2 ^ 31)
  | TVoid => true
  | TStruct _ _ sz => (0 <? sz) && (sz <? 2 ^ 31)
  end.
Definition compat (c v : ty) : bool :=
  match decay c, decay v with
  | TInt _ _, TInt _ _ => true
  | TPtr a, TPtr b => ty_eqb a b
  | _, _ => false
  end.
(** Every value of [t] is a value of [u]. *)
Definition subr (t u : ty) : bool :=
  match t, u with
  | TInt n1 s1, TInt n2 s2 => if Bool.eqb s1 s2 then n1 <=? n2 else (negb s1) && (n1 <? n2)
  | _, _ => false
  end.
Definition conv_ok (k : Z) (t u : ty) : bool := (k <=? csize W u) || subr t u.
(** No negative values, and less than half the word range. *)
Definition small (t : ty) : bool := match t with TInt n s => negb s && (n <? W) | _ => false end.
Definition isint (t : ty) : bool := match t with TInt _ _ => true | _ => false end.
Definition sgnd (t : ty) : bool := match t with TInt _ s => s | _ => false end.

(** Operand modes for a binary operator used in mode [k]; [t1], [t2] the C types, [v1], [v2] pnut's. *)
Definition bmodes (o : bop) (k : Z) (t1 t2 v1 v2 : ty) : option (mode * mode) :=
  let ms := is_sgn v1 && is_sgn v2 in
  let both := small t1 && small t2 in
  let guard (b : bool) m := if b then Some m else None in
  match decay t1, decay t2 with
  | TInt _ _, TInt _ _ =>
      match uac t1 t2 with
      | Some rt =>
          if negb (isint v1 && isint v2) then None else
          match o with
          | Add | Sub | Mul | And | Or | Xor => guard (sgnd rt || (k <=? csize W rt)) (Mod k, Mod k)
          | Shl => guard (sgnd (promote t1) || (k <=? csize W (promote t1))) (Mod k, Mod W)
          | Shr => guard (if sgnd (promote t1) then ms || small t1 else negb ms || (csize W (promote t1) <? W)) (Mod W, Mod W)
          | Div | Rem | Lt | Gt | Le | Ge =>
              guard (if sgnd rt then ms || both else if csize W rt =? W then negb ms else both) (Mod W, Mod W)
          | Eq | Ne => guard (sgnd rt || (csize W rt =? W) || both) (Mod W, Mod W)
          end
      | None => None
      end
  | TPtr t, TInt _ _ =>
      if negb (compat t1 v1 && isint v2) then None else
      match o with
      | Add | Sub => guard ((1 <=? csize W t) && (csize W t <? 2 ^ 31)) (Mod W, Mod W)
      | Eq | Ne => Some (Mod W, Mod W)
      | _ => None
      end
  | TInt _ _, TPtr t =>
      if negb (compat t2 v2 && isint v1) then None else
      match o with
      | Add => guard ((1 <=? csize W t) && (csize W t <? 2 ^ 31)) (Mod W, Mod W)
      | Eq | Ne => Some (Mod W, Mod W)
      | _ => None
      end
  | TPtr t, TPtr _ =>
      if negb (compat t1 v1 && compat t2 v2) then None else
      match o with
      | Sub => guard ((1 <=? csize W t) && (csize W t <? 2 ^ 31) && is_power_of_2 (csize W t)) (Mod W, Mod W)
      | Eq | Ne => Some (Mod W, Mod W)
      | _ => None
      end
  | _, _ => None
  end.

Fixpoint boolish (e : expr) : bool :=
  match e with
  | EPar e => boolish e
  | ENot _ => true
  | EBin o _ _ => is_cmp o
  | EAnd _ _ | EOr _ _ => true
  | _ => false
  end.

Section E.
Variable G : list (Z * ty).
(** C type and pnut's type of an expression, both well formed. *)
Definition ty2 (e : expr) : option (ty * ty) :=
  match ctype W funs G e, value_type (lookupZ G) ftab mtab e with
  | Some c, Some v => if wfty c && wfty v then Some (c, v) else None
  | _, _ => None
  end.

(** A member that is there, with a well-formed type. *)
Definition smem (t : ty) (m : Z) : bool :=
  match t with TStruct _ id _ => match dmem funs id m with Some (_, t) => wfty t | None => false end | _ => false end.

Fixpoint supp (m : mode) (e : expr) {struct e} : bool :=
  let k := match m with Mod k => k | Truth => W end in
  match e with
  | ELit _ | EChr _ => true
  | EVar x => match lookupZ G x with Some t => wfty t | None => false end
  | EPar e => supp m e
  | EDeref e => match ty2 e with
                | Some (c, v) => compat c v && match target c with Some t => scalar t | None => false end && supp (Mod W) e
                | None => false end
  | EAddr e => slv e
  | EPlus e => match ty2 e with Some (TInt _ _, v) => isint v && supp (Mod k) e | _ => false end
  | ENeg e | EBnot e =>
      match ty2 e with
      | Some (TInt n s, v) => isint v && (sgnd (promote (TInt n s)) || (k <=? csize W (promote (TInt n s)))) && supp (Mod k) e
      | _ => false end
  | ENot e => match ty2 e with Some _ => supp Truth e | None => false end
  | EInc post up e =>
      match ty2 e with
      | Some (c, v) =>
          let k' := if post then csize W c else Z.max k (csize W c) in
          let o := if up then Add else Sub in
          scalar c && ty_eqb c v && slv e &&
          match btype W o c tint, bmodes o k' c tint v tint with
          | Some rt, Some _ => post || conv_ok k rt c
          | _, _ => false
          end
      | None => false
      end
  | ESizeT t => wfty t && (csize W t <? 2 ^ 31)
  | ESizeE e => match ty2 e with Some (c, v) => (csize W c =? csize W v) && (csize W c <? 2 ^ 31) | None => false end
  | EBin o a b =>
      match ty2 a, ty2 b with
      | Some (t1, v1), Some (t2, v2) =>
          match bmodes o k t1 t2 v1 v2 with Some (m1, m2) => supp m1 a && supp m2 b | None => false end
      | _, _ => false
      end
  | EIdx a b => match ty2 a, ty2 b with
                | Some (t1, v1), Some (t2, v2) =>
                    match bmodes Add W t1 t2 v1 v2, btype W Add t1 t2 with
                    | Some _, Some t => match target t with Some t => scalar t | None => false end && supp (Mod W) a && supp (Mod W) b
                    | _, _ => false end
                | _, _ => false
                end
  | EComma a b => supp (Mod 0) a && match ctype W funs G b with Some t => wfty t && negb (is_arr t) | None => false end && supp m b
  | EAsg a b =>
      match ty2 a, ty2 b with
      | Some (c, v), Some (t2, v2) =>
          if is_struct c then (k =? 0) && ty_eqb c v && ty_eqb c t2 && ty_eqb c v2 && slv a && slv b else      (* structure assignment, value not used *)
          scalar c && ty_eqb c v && (isint t2 || is_ptr t2) && slv a && conv_ok k t2 c && supp (Mod (Z.max k (csize W c))) b
      | _, _ => false
      end
  | EOpAsg o a b =>
      match ty2 a, ty2 b with
      | Some (c, v), Some (t2, v2) =>
          scalar c && ty_eqb c v && slv a && negb (is_cmp o) &&
          match btype W o c t2, bmodes o (Z.max k (csize W c)) c t2 v v2 with
          | Some rt, Some (_, m2) => conv_ok k rt c && supp m2 b
          | _, _ => false
          end
      | _, _ => false
      end
  | EAnd a b => supp Truth a && match m with Truth => supp Truth b | Mod k => ((k =? 0) || boolish b) && supp (Mod k) b end
  | EOr a b => match m with Truth => supp Truth a && supp Truth b
               | Mod k => if k =? 0 then supp Truth a && supp (Mod 0) b else boolish a && boolish b && supp (Mod W) a && supp (Mod k) b end
  | ECall f l =>
      match funs f with
      | Some (FUser ps r _) => sargs (map snd ps) l && match r with TVoid => k =? 0 | _ => wfty r && scalar r end
      | Some FPutchar => sargs [TInt 1 true] l && (k <=? 1)
      | Some FGetchar => sargs [] l
      | None => false
      end
  | ECast t e =>
      match ty2 e with
      | Some (c, v) =>
          wfty t && scalar t && (isint c || is_ptr c) && negb (is_struct v) &&
          if width_of W t false <? width_of W v false then supp (Mod (csize W t)) e
          else conv_ok k c t && supp (Mod k) e
      | None => false
      end
  | ECond c a b =>
      match ctype W funs G (ECond c a b), ctype W funs G a, ctype W funs G b with
      | Some t, Some t1, Some t2 => wfty t && scalar t && (isint t1 || is_ptr t1) && (isint t2 || is_ptr t2) && wfty t1 && wfty t2 &&
          supp Truth c && conv_ok k t1 t && conv_ok k t2 t && supp (Mod k) a && supp (Mod k) b
      | _, _, _ => false
      end
  | EDot e m => match ty2 e with Some (c, v) => ty_eqb c v && smem c m && slv e | None => false end
  | EArrow e m => match ty2 e with Some (TPtr c, TPtr v) => ty_eqb c v && smem c m && supp (Mod W) e | _ => false end
  end
with slv (e : expr) {struct e} : bool :=
  match e with
  | EVar x => match lookupZ G x with Some t => wfty t | None => false end
  | EPar e => slv e
  | EDeref e => match ty2 e with
                | Some (c, v) => compat c v && supp (Mod W) e
                | None => false end
  | EIdx a b => match ty2 a, ty2 b with
                | Some (t1, v1), Some (t2, v2) =>
                    is_ptr v1 && match bmodes Add W t1 t2 v1 v2 with
                    | Some _ => supp (Mod W) a && supp (Mod W) b
                    | None => false end
                | _, _ => false
                end
  | EDot e m => match ty2 e with Some (c, v) => ty_eqb c v && smem c m && slv e | None => false end
  | EArrow e m => match ty2 e with Some (TPtr c, TPtr v) => ty_eqb c v && smem c m && supp (Mod W) e | _ => false end
  | _ => false
  end
with sargs (ts : list ty) (l : args) {struct l} : bool :=
  match ts, l with
  | [], ANil => true
  | t :: ts, ACons e l => wfty t && scalar t && match ty2 e with Some (c, _) => isint c || is_ptr c | None => false end &&
                          supp (Mod (csize W t)) e && sargs ts l
  | _, _ => false
  end.
End E.

(** Statements; [rt] is the result type of the function, [cont] tells whether [continue] is covered. *)
Definition sopt (G : list (Z * ty)) (e : option expr) : bool := match e with Some e => supp G (Mod 0) e | None => true end.
Fixpoint slabs (t : ty) (l : list lbl) : bool :=
  match l with
  | [] => true
  | LCase z :: l => inrb W (promote t) z && (- 2 ^ 31 <? z) && (z <? 2 ^ 31) && slabs t l
  | LDefault :: l => slabs t l
  end.
Fixpoint ss (G : list (Z * ty)) (rt : ty) (cont : bool) (c : stmt) : bool :=
  match c with
  | SSkip | SBreak => true
  | SContinue => cont
  | SExpr e => supp G (Mod 0) e
  | SIf e s1 s2 => supp G Truth e && ss G rt cont s1 && ss G rt cont s2
  | SWhile e s => supp G Truth e && ss G rt true s
  | SDo s e => supp G Truth e && ss G rt false s
  | SFor i t st s => sopt G i && sopt G st && match t with Some t => supp G Truth t | None => true end && ss G rt true s
  | SSwitch e l => match ctype W funs G e with Some (TInt n s) => wfty (TInt n s) && supp G (Mod W) e && sw G rt cont (TInt n s) l | _ => false end
  | SReturn None => match rt with TVoid => true | _ => false end
  | SReturn (Some e) => match rt, ctype W funs G e with
                        | TVoid, _ | _, None => false
                        | _, Some t => (isint t || is_ptr t) && wfty t && wfty rt && scalar rt && conv_ok W t rt && supp G (Mod W) e
                        end
  | SBlock l => si G rt cont l
  end
with si (G : list (Z * ty)) (rt : ty) (cont : bool) (l : items) : bool :=
  match l with
  | INil => true
  | IStmt c l => ss G rt cont c && si G rt cont l
  | IDecl x t i l =>
      wfty t && (scalar t || is_agg t) &&
      match i with None => true
      | Some e => scalar t && match ctype W funs ((x, t) :: G) e with Some t2 => (isint t2 || is_ptr t2) | None => false end &&
                  supp ((x, t) :: G) (Mod (csize W t)) e end &&
      si ((x, t) :: G) rt cont l
  end
with sw (G : list (Z * ty)) (rt : ty) (cont : bool) (t : ty) (l : swl) : bool :=
  match l with
  | WNil => true
  | WCons labs c l => slabs t labs && ss G rt cont c && sw G rt cont t l
  end.
End S.
