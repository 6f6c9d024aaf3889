(** * The C language (specification): values, typing and execution of the fragment used for C34 and C35

    Written after C11 (6.3.1, 6.5, 6.8, 6.9), independent of pnut.  Memory is a flat array of bytes; every object is a
    live block of addresses.  Evaluation is a predicate transformer: [ce n E e s Q] says that, whatever addresses
    and initial contents are given to local objects, evaluating [e] from [s] terminates (within depth [n]) without
    undefined behaviour, in a value and a state satisfying [Q].  Undefined behaviour is [False].
    Where C leaves the order of evaluation open, one allowed order is fixed: operands left to right, arguments
    right to left. *)
From Coq Require Import ZArith List Lia Bool.
From Verif Require Import Base X86Sem.
Import ListNotations.
Open Scope Z_scope.

(** [TStruct u id sz]: the structure (or, if [u], union) [id], which has [sz] bytes. *)
Inductive ty := TInt (n : Z) (sg : bool) | TPtr (t : ty) | TArr (t : ty) (n : Z) | TVoid | TStruct (u : bool) (id sz : Z).
Inductive bop := Add | Sub | Mul | Div | Rem | And | Or | Xor | Shl | Shr | Lt | Gt | Le | Ge | Eq | Ne.
Inductive expr :=
| ELit (z : Z) | EChr (z : Z) | EVar (x : Z) | EPar (e : expr)
| EDeref (e : expr) | EAddr (e : expr) | EPlus (e : expr) | ENeg (e : expr) | EBnot (e : expr) | ENot (e : expr)
| EInc (post : bool) (up : bool) (e : expr)       (* e++ e-- ++e --e *)
| ESizeT (t : ty) | ESizeE (e : expr)
| EBin (o : bop) (a b : expr) | EIdx (a b : expr) | EComma (a b : expr)
| EAsg (a b : expr) | EOpAsg (o : bop) (a b : expr)
| EAnd (a b : expr) | EOr (a b : expr)
| ECall (f : Z) (l : args) | ECast (t : ty) (e : expr) | ECond (c a b : expr)
| EDot (e : expr) (m : Z) | EArrow (e : expr) (m : Z)
with args := ANil | ACons (e : expr) (l : args).

(** Labels of a statement in the body of a switch. *)
Inductive lbl := LCase (z : Z) | LDefault.
Inductive stmt :=
| SSkip | SExpr (e : expr) | SIf (e : expr) (s1 s2 : stmt)
| SWhile (e : expr) (s : stmt) | SDo (s : stmt) (e : expr)
| SFor (init test step : option expr) (s : stmt)
| SSwitch (e : expr) (l : swl)
| SBreak | SContinue | SReturn (e : option expr) | SBlock (l : items)
with items := INil | IStmt (s : stmt) (l : items) | IDecl (x : Z) (t : ty) (i : option expr) (l : items)
with swl := WNil | WCons (labs : list lbl) (s : stmt) (l : swl).

(** A function: parameters, result type, body; or one of the two library functions of the fragment. *)
Inductive fdef := FUser (ps : list (Z * ty)) (ret : ty) (body : items) | FPutchar | FGetchar.
(** What the program declares: its functions, and the offset and the type of each member of each structure.
    C leaves the offsets to the implementation (6.7.2.1). *)
Record cdecls := CDecls { dfun :> Z -> option fdef; dmem : Z -> Z -> option (Z * ty) }.

Section C.
Variable W : Z.                     (* word size: 4 or 8 *)
Variable funs : cdecls.             (* the declarations of the program *)

Definition tint := TInt 4 true.
Fixpoint csize (t : ty) : Z :=
  match t with TInt n _ => n | TPtr _ => W | TArr t n => n * csize t | TVoid => 1 | TStruct _ _ sz => sz end.
(** The values of a type. *)
Definition inr_ (t : ty) (v : Z) : Prop :=
  match t with
  | TInt n true => - 2 ^ (8 * n - 1) <= v < 2 ^ (8 * n - 1)
  | TInt n false => 0 <= v < 2 ^ (8 * n)
  | TPtr _ | TArr _ _ => 0 <= v < MOD W
  | TVoid => True
  | TStruct _ _ _ => v = 0        (* expressions of structure type have no value here *)
  end.
Definition inrb (t : ty) (v : Z) : bool :=
  match t with
  | TInt n true => (- 2 ^ (8 * n - 1) <=? v) && (v <? 2 ^ (8 * n - 1))
  | TInt n false => (0 <=? v) && (v <? 2 ^ (8 * n))
  | TPtr _ | TArr _ _ => (0 <=? v) && (v <? MOD W)
  | TVoid => true
  | TStruct _ _ _ => v =? 0
  end.
(** Conversion to a type (6.3.1.3; to signed types two's complement wrap-around; 6.3.2.3 for pointers). *)
Definition conv (t : ty) (v : Z) : Z :=
  match t with
  | TInt n false => v mod 2 ^ (8 * n)
  | TInt n true => let u := v mod 2 ^ (8 * n) in if 2 ^ (8 * n - 1) <=? u then u - 2 ^ (8 * n) else u
  | TPtr _ | TArr _ _ => v mod MOD W
  | TVoid => v
  | TStruct _ _ _ => 0
  end.
Definition promote (t : ty) : ty := match t with TInt n _ => if n <? 4 then tint else t | _ => t end.
(** Usual arithmetic conversions (6.3.1.8). *)
Definition uac (t1 t2 : ty) : option ty :=
  match promote t1, promote t2 with
  | TInt n1 s1, TInt n2 s2 =>
      Some (if Bool.eqb s1 s2 then TInt (Z.max n1 n2) s1
            else if s1 then (if n1 <=? n2 then TInt n2 false else TInt n1 true)
            else (if n2 <=? n1 then TInt n1 false else TInt n2 true))
  | _, _ => None
  end.
Definition decay (t : ty) : ty := match t with TArr t _ => TPtr t | _ => t end.
Definition target (t : ty) : option ty := match t with TPtr t | TArr t _ => Some t | _ => None end.
Definition scalar (t : ty) : bool := match t with TInt _ _ | TPtr _ => true | _ => false end.
Definition is_cmp (o : bop) : bool := match o with Lt | Gt | Le | Ge | Eq | Ne => true | _ => false end.

(** Type of a binary operation on operands of (decayed) types. *)
Definition btype (o : bop) (t1 t2 : ty) : option ty :=
  match decay t1, decay t2 with
  | TInt _ _, TInt _ _ =>
      if is_cmp o then Some tint else match o with Shl | Shr => Some (promote t1) | _ => uac t1 t2 end
  | TPtr t, TInt _ _ =>
      match o with Add | Sub => Some (TPtr t) | Eq | Ne => Some tint | _ => None end
  | TInt _ _, TPtr t => match o with Add => Some (TPtr t) | Eq | Ne => Some tint | _ => None end
  | TPtr _, TPtr _ => match o with Sub => Some (TInt W true) | Eq | Ne => Some tint | _ => None end
  | _, _ => None
  end.

Definition b2i (b : bool) : Z := if b then 1 else 0.
Definition cmpv (o : bop) (x y : Z) : bool :=
  match o with Lt => x <? y | Gt => y <? x | Le => x <=? y | Ge => y <=? x | Eq => x =? y | _ => negb (x =? y) end.
(** The exact result of an arithmetic operation; division truncates. *)
Definition exact (o : bop) (x y : Z) : option Z :=
  match o with
  | Add => Some (x + y) | Sub => Some (x - y) | Mul => Some (x * y)
  | Div => if y =? 0 then None else Some (Z.quot x y)
  | Rem => if y =? 0 then None else Some (Z.rem x y)
  | And => Some (Z.land x y) | Or => Some (Z.lor x y) | Xor => Some (Z.lxor x y)
  | _ => None
  end.
(** A result outside the range of a signed type is undefined; of an unsigned type it wraps. *)
Definition fit (t : ty) (v : Z) : option Z :=
  match t with
  | TInt n true => if inrb t v then Some v else None
  | TInt n false => Some (v mod 2 ^ (8 * n))
  | _ => None
  end.
Definition bits (t : ty) : Z := 8 * csize t.
(** Value of [x o y] for operands of types [t1], [t2] (6.5.5-6.5.12). *)
Definition bval (o : bop) (t1 t2 : ty) (x y : Z) : option Z :=
  match decay t1, decay t2 with
  | TInt _ _, TInt _ _ =>
      match o with
      | Shl => let t := promote t1 in
               if (0 <=? y) && (y <? bits t)
               then match t with TInt _ true => if 0 <=? x then fit t (x * 2 ^ y) else None | _ => fit t (x * 2 ^ y) end
               else None
      | Shr => let t := promote t1 in if (0 <=? y) && (y <? bits t) then Some (x / 2 ^ y) else None
      | _ => match uac t1 t2 with
             | Some t => if is_cmp o then Some (b2i (cmpv o (conv t x) (conv t y)))
                         else match exact o (conv t x) (conv t y) with
                              | Some v => match o with Rem => if (match t with TInt _ s => s | _ => false end) && negb (inrb t (Z.quot (conv t x) (conv t y))) then None else fit t v
                                          | _ => fit t v end
                              | None => None end
             | None => None
             end
      end
  | TPtr t, TInt _ _ =>
      match o with
      | Add => let a := x + y * csize t in if (0 <=? a) && (a <? MOD W) then Some a else None
      | Sub => let a := x - y * csize t in if (0 <=? a) && (a <? MOD W) then Some a else None
      | Eq => Some (b2i (x =? y mod MOD W)) | Ne => Some (b2i (negb (x =? y mod MOD W)))   (* the integer is converted *)
      | _ => None
      end
  | TInt _ _, TPtr t =>
      match o with
      | Add => let a := y + x * csize t in if (0 <=? a) && (a <? MOD W) then Some a else None
      | Eq => Some (b2i (x mod MOD W =? y)) | Ne => Some (b2i (negb (x mod MOD W =? y)))
      | _ => None
      end
  | TPtr t, TPtr _ =>
      match o with
      | Sub => let d := x - y in
               if (- HALF W <=? d) && (d <? HALF W) && (d mod csize t =? 0) then Some (d / csize t) else None
      | Eq => Some (b2i (x =? y)) | Ne => Some (b2i (negb (x =? y)))
      | _ => None
      end
  | _, _ => None
  end.

(** Types of expressions. *)
Definition member_type (id m : Z) : option ty := match dmem funs id m with Some (_, t) => Some t | None => None end.
Fixpoint ctype (G : list (Z * ty)) (e : expr) : option ty :=
  match e with
  | ELit _ | EChr _ => Some tint
  | EVar x => lookupZ G x
  | EPar e => ctype G e
  | EDeref e => match ctype G e with Some t => target t | None => None end
  | EAddr e => match ctype G e with Some t => Some (TPtr t) | None => None end
  | EPlus e | ENeg e | EBnot e =>
      match ctype G e with Some (TInt n s) => Some (promote (TInt n s)) | _ => None end
  | ENot e => match ctype G e with Some t => if scalar (decay t) then Some tint else None | None => None end
  | EInc _ _ e => ctype G e
  | ESizeT _ | ESizeE _ => Some (TInt W false)
  | EBin o a b => match ctype G a, ctype G b with Some t1, Some t2 => btype o t1 t2 | _, _ => None end
  | EIdx a b => match ctype G a, ctype G b with
                | Some t1, Some t2 => match btype Add t1 t2 with Some t => target t | None => None end
                | _, _ => None end
  | EComma a b => match ctype G b with Some t => Some (decay t) | None => None end
  | EAsg a b => ctype G a
  | EOpAsg _ a _ => ctype G a
  | EAnd _ _ | EOr _ _ => Some tint
  | ECall f _ => match funs f with Some (FUser _ r _) => Some r | Some FPutchar | Some FGetchar => Some tint | None => None end
  | ECast t _ => Some t
  | ECond _ a b => match ctype G a, ctype G b with
                   | Some t1, Some t2 => match decay t1, decay t2 with
                                         | TInt _ _, TInt _ _ => uac t1 t2
                                         | TPtr _, TVoid | TVoid, TPtr _ => None
                                         | TInt _ _, t | t, TInt _ _ => Some t
                                         | t, _ => Some t
                                         end
                   | _, _ => None end
  | EDot e m => match ctype G e with Some (TStruct _ id _) => member_type id m | _ => None end
  | EArrow e m => match option_map decay (ctype G e) with Some (TPtr (TStruct _ id _)) => member_type id m | _ => None end
  end.

(** ** Execution *)
Record cst := CS { cmem : Z -> Z; cout : list Z; cin : list Z }.
(** Variables in scope (innermost first) with their addresses, and the live blocks (address, size). *)
Record env := Env { vars : list (Z * (Z * ty)); live : list (Z * Z) }.
Definition tys (vs : list (Z * (Z * ty))) : list (Z * ty) := map (fun p => (fst p, snd (snd p))) vs.
Definition inlive (L : list (Z * Z)) (a : Z) : Prop := exists b, In b L /\ fst b <= a < fst b + snd b.
(** [n] bytes at [a] lie in one live block. *)
Definition inblock (L : list (Z * Z)) (a n : Z) : Prop := exists b, In b L /\ fst b <= a /\ a + n <= fst b + snd b.
(** [a] may be the address of a new object of [n] bytes. *)
Definition fresh (L : list (Z * Z)) (a n : Z) : Prop :=
  0 < a /\ a + n <= MOD W /\ forall x, a <= x < a + n -> ~ inlive L x.
Definition loadv (t : ty) (m : Z -> Z) (a : Z) : Z :=
  match t with
  | TInt n true => sgnn n (rd (Z.to_nat n) m a)
  | _ => rd (Z.to_nat (csize t)) m a
  end.
Definition storev (t : ty) (m : Z -> Z) (a v : Z) : Z -> Z := wrb (Z.to_nat (csize t)) m a v.
Definition setmem (s : cst) (m : Z -> Z) : cst := CS m (cout s) (cin s).
Definition reads (E : env) (t : ty) (a : Z) (s : cst) (Q : Z -> cst -> Prop) : Prop :=
  match t with
  | TArr _ _ => Q a s
  | TVoid | TStruct _ _ _ => False        (* values of structure type are not covered *)
  | _ => inblock (live E) a (csize t) /\ Q (loadv t (cmem s) a) s
  end.
Definition writes (E : env) (t : ty) (a v : Z) (s : cst) (Q : cst -> Prop) : Prop :=
  scalar t = true /\ inblock (live E) a (csize t) /\ Q (setmem s (storev t (cmem s) a v)).
(** Assignment of a structure of [n] bytes: from [q] to [p]; overlapping only if they are the same object (6.5.16.1p3). *)
Definition copyv (m : Z -> Z) (p q n : Z) : Z -> Z := fun x => if (p <=? x) && (x <? p + n) then m (x - p + q) else m x.
Definition copies (E : env) (p q n : Z) (s : cst) (Q : cst -> Prop) : Prop :=
  inblock (live E) p n /\ inblock (live E) q n /\ p + n <= MOD W /\ q + n <= MOD W /\ (p = q \/ p + n <= q \/ q + n <= p) /\
  Q (setmem s (copyv (cmem s) p q n)).
Definition oq {A B} (o : option A) (Q : A -> B -> Prop) (s : B) : Prop := match o with Some v => Q v s | None => False end.

(** The address of member [m] of the structure of type [t] at [a]; the members of a union are all at its beginning. *)
Definition member_addr (t : ty) (m a : Z) : option Z :=
  match t with
  | TStruct u id _ => match dmem funs id m with
                      | Some (off, _) => let b := a + (if u then 0 else off) in if (0 <=? b) && (b <? MOD W) then Some b else None
                      | None => None end
  | _ => None
  end.

Inductive out := ONormal | OBreak | OContinue | OReturn (v : Z).

(** Parameters get objects of their own. *)
Fixpoint bindp (ps : list (Z * ty)) (vs : list Z) (V : list (Z * (Z * ty))) (L : list (Z * Z)) (m : Z -> Z)
  (K : list (Z * (Z * ty)) -> list (Z * Z) -> (Z -> Z) -> Prop) : Prop :=
  match ps, vs with
  | [], [] => K V L m
  | (x, t) :: ps, v :: vs =>
      scalar t = true /\
      forall a, fresh L a (csize t) -> bindp ps vs ((x, (a, t)) :: V) ((a, csize t) :: L) (storev t m a v) K
  | _, _ => False
  end.

(** Where a switch on [v] continues. *)
Fixpoint has_case (v : Z) (l : list lbl) : bool :=
  match l with [] => false | LCase z :: l => (z =? v) || has_case v l | LDefault :: l => has_case v l end.
Fixpoint has_default (l : list lbl) : bool :=
  match l with [] => false | LCase _ :: l => has_default l | LDefault :: _ => true end.
Fixpoint seek (f : list lbl -> bool) (l : swl) : option swl :=
  match l with WNil => None | WCons labs _ r => if f labs then Some l else seek f r end.
Definition entry (v : Z) (l : swl) : swl :=
  match seek (has_case v) l with
  | Some r => r
  | None => match seek has_default l with Some r => r | None => WNil end
  end.

Variable gvars : list (Z * (Z * ty)).   (* the global variables *)

Fixpoint ce (n : nat) (E : env) (e : expr) (s : cst) (Q : Z -> cst -> Prop) {struct n} : Prop :=
  match n with O => False | S n =>
  let ct e := ctype (tys (vars E)) e in
  match e with
  | ELit z => 0 <= z < 2 ^ 31 /\ Q z s
  | EChr z => 0 <= z < 128 /\ Q z s
  | EVar _ | EDeref _ | EIdx _ _ | EDot _ _ | EArrow _ _ =>
      match ct e with Some t => cl n E e s (fun a s => reads E t a s Q) | None => False end
  | EPar e => ce n E e s Q
  | EAddr e => cl n E e s Q
  | EPlus e => match ct e with Some (TInt _ _) => ce n E e s Q | _ => False end
  | ENeg e => match ct e with
              | Some (TInt k sg) => ce n E e s (fun v s => oq (fit (promote (TInt k sg)) (- v)) Q s) | _ => False end
  | EBnot e => match ct e with
               | Some (TInt k sg) => ce n E e s (fun v s => oq (fit (promote (TInt k sg)) (- v - 1)) Q s) | _ => False end
  | ENot e => ce n E e s (fun v s => Q (b2i (v =? 0)) s)
  | EInc post up e =>
      match ct e with
      | Some t => cl n E e s (fun a s => reads E t a s (fun v s =>
          oq (bval (if up then Add else Sub) t tint v 1) (fun v' s => writes E t a v' s (fun s => Q (if post then v else conv t v') s)) s))
      | None => False
      end
  | ESizeT t => Q (csize t) s
  | ESizeE e => match ct e with Some t => Q (csize t) s | None => False end
  | EBin o a b =>
      match ct a, ct b with
      | Some t1, Some t2 => ce n E a s (fun x s => ce n E b s (fun y s => oq (bval o t1 t2 x y) Q s))
      | _, _ => False
      end
  | EComma a b => ce n E a s (fun _ s => ce n E b s Q)
  | EAsg a b =>
      match ct a with
      | Some (TStruct u id n') => ct b = Some (TStruct u id n') /\ cl n E a s (fun p s => cl n E b s (fun q s => copies E p q n' s (fun s => Q 0 s)))
      | Some t => cl n E a s (fun p s => ce n E b s (fun v s => writes E t p v s (fun s => Q (conv t v) s)))
      | None => False
      end
  | EOpAsg o a b =>
      match ct a, ct b with
      | Some t, Some t2 => cl n E a s (fun p s => reads E t p s (fun x s => ce n E b s (fun y s =>
          oq (bval o t t2 x y) (fun v s => writes E t p v s (fun s => Q (conv t v) s)) s)))
      | _, _ => False
      end
  | EAnd a b => ce n E a s (fun x s => if x =? 0 then Q 0 s else ce n E b s (fun y s => Q (b2i (negb (y =? 0))) s))
  | EOr a b => ce n E a s (fun x s => if x =? 0 then ce n E b s (fun y s => Q (b2i (negb (y =? 0))) s) else Q 1 s)
  | ECall f l => cargs n E l s (fun vs s => ccall n (live E) f vs s Q)
  | ECast t e => match ct e with Some _ => ce n E e s (fun v s => Q (conv t v) s) | None => False end
  | ECond c a b => match ct (ECond c a b) with
                   | Some t => ce n E c s (fun x s => ce n E (if x =? 0 then b else a) s (fun v s => Q (conv t v) s))
                   | None => False end
  end end
(** The address of an lvalue. *)
with cl (n : nat) (E : env) (e : expr) (s : cst) (Q : Z -> cst -> Prop) {struct n} : Prop :=
  match n with O => False | S n =>
  match e with
  | EVar x => match lookupZ (vars E) x with Some (a, _) => Q a s | None => False end
  | EPar e => cl n E e s Q
  | EDeref e => ce n E e s Q
  | EIdx a b =>
      match ctype (tys (vars E)) a, ctype (tys (vars E)) b with
      | Some t1, Some t2 => ce n E a s (fun x s => ce n E b s (fun y s => oq (bval Add t1 t2 x y) Q s))
      | _, _ => False
      end
  | EDot e m => match ctype (tys (vars E)) e with
                | Some t => cl n E e s (fun a s => oq (member_addr t m a) Q s)
                | None => False end
  | EArrow e m => match option_map decay (ctype (tys (vars E)) e) with
                  | Some (TPtr t) => ce n E e s (fun a s => oq (member_addr t m a) Q s)
                  | _ => False end
  | _ => False
  end end
with cargs (n : nat) (E : env) (l : args) (s : cst) (Q : list Z -> cst -> Prop) {struct n} : Prop :=
  match n with O => False | S n =>
  match l with
  | ANil => Q [] s
  | ACons e l => cargs n E l s (fun vs s => ce n E e s (fun v s => Q (v :: vs) s))
  end end
with ccall (n : nat) (L : list (Z * Z)) (f : Z) (vs : list Z) (s : cst) (Q : Z -> cst -> Prop) {struct n} : Prop :=
  match n with O => False | S n =>
  match funs f with
  | None => False
  | Some FPutchar => match vs with [v] => Q (v mod 256) (CS (cmem s) (cout s ++ [v mod 256]) (cin s)) | _ => False end
  | Some FGetchar =>
      match vs with
      | [] => match cin s with [] => Q (-1) s | c :: r => Q (c mod 256) (CS (cmem s) (cout s) r) end
      | _ => False
      end
  | Some (FUser ps ret body) =>
      bindp ps vs gvars L (cmem s) (fun V L m =>
        ci n (Env V L) body (setmem s m) (fun o s =>
          match o with
          | OReturn v => Q (conv ret v) s
          | ONormal => ret = TVoid /\ Q 0 s
          | _ => False
          end))
  end end
with cs (n : nat) (E : env) (c : stmt) (s : cst) (Q : out -> cst -> Prop) {struct n} : Prop :=
  match n with O => False | S n =>
  let loop o s (again : cst -> Prop) :=
    match o with ONormal | OContinue => again s | OBreak => Q ONormal s | OReturn v => Q (OReturn v) s end in
  match c with
  | SSkip => Q ONormal s
  | SExpr e => ce n E e s (fun _ s => Q ONormal s)
  | SIf e s1 s2 => ce n E e s (fun v s => cs n E (if v =? 0 then s2 else s1) s Q)
  | SWhile e b => ce n E e s (fun v s => if v =? 0 then Q ONormal s else
                    cs n E b s (fun o s => loop o s (fun s => cs n E c s Q)))
  | SDo b e => cs n E b s (fun o s => loop o s (fun s => ce n E e s (fun v s =>
                 if v =? 0 then Q ONormal s else cs n E c s Q)))
  | SFor i t st b =>
      cs n E (match i with Some e => SExpr e | None => SSkip end) s (fun _ s => cfor n E t st b s Q)
  | SSwitch e l =>
      match ctype (tys (vars E)) e with
      | Some (TInt _ _) =>
          ce n E e s (fun v s => cw n E (entry v l) s (fun o s => match o with OBreak => Q ONormal s | _ => Q o s end))
      | _ => False
      end
  | SBreak => Q OBreak s
  | SContinue => Q OContinue s
  | SReturn None => Q (OReturn 0) s
  | SReturn (Some e) => ce n E e s (fun v s => Q (OReturn v) s)
  | SBlock l => ci n E l s Q
  end end
with cfor (n : nat) (E : env) (t st : option expr) (b : stmt) (s : cst) (Q : out -> cst -> Prop) {struct n} : Prop :=
  match n with O => False | S n =>
  ce n E (match t with Some e => e | None => ELit 1 end) s (fun v s =>
    if v =? 0 then Q ONormal s else
    cs n E b s (fun o s =>
      match o with
      | ONormal | OContinue =>
          cs n E (match st with Some e => SExpr e | None => SSkip end) s (fun _ s => cfor n E t st b s Q)
      | OBreak => Q ONormal s
      | OReturn v => Q (OReturn v) s
      end))
  end
with ci (n : nat) (E : env) (l : items) (s : cst) (Q : out -> cst -> Prop) {struct n} : Prop :=
  match n with O => False | S n =>
  match l with
  | INil => Q ONormal s
  | IStmt c l => cs n E c s (fun o s => match o with ONormal => ci n E l s Q | _ => Q o s end)
  | IDecl x t i l =>
      0 < csize t /\
      forall a, fresh (live E) a (csize t) -> forall m, bytes_ok m ->
        (forall y, ~ (a <= y < a + csize t) -> m y = cmem s y) ->
        let E' := Env ((x, (a, t)) :: vars E) ((a, csize t) :: live E) in
        match i with
        | None => ci n E' l (setmem s m) Q
        | Some e => ce n E' e (setmem s m) (fun v s => writes E' t a v s (fun s => ci n E' l s Q))
        end
  end end
with cw (n : nat) (E : env) (l : swl) (s : cst) (Q : out -> cst -> Prop) {struct n} : Prop :=
  match n with O => False | S n =>
  match l with
  | WNil => Q ONormal s
  | WCons _ c l => cs n E c s (fun o s => match o with ONormal => cw n E l s Q | _ => Q o s end)
  end end.
End C.
