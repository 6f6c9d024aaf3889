(** * Expressions compiled to shell arithmetic: what C says, and the fragment that is compiled right

    [cev]: C11 6.5 on int values and pointers to a memory of numbered words (pnut's shell target
    gives every object size 1, so pointers are word numbers and pointer arithmetic is addition).
    Besides value and store it returns the locations read and written, because C leaves an
    expression undefined when unsequenced operands touch the same location (6.5p2).  [None]: the
    expression has no defined value (overflow, division by zero, bad shift, negative address, race).
    Casts are those to int or pointer types.

    [okx]: the static restrictions, one line each; every one excludes expressions that pnut
    compiles wrongly (PropShArith.v exhibits them).
    [hst]: the dynamic restriction.  The addresses of memory words are expanded before anything else
    in the expression is evaluated, also those in operands C does not evaluate; [hst] asks that
    this order cannot be noticed, and returns the locations read ([H]) and written ([W1]) early. *)
From Coq Require Import ZArith List Lia Bool.
From Verif Require Import Base Ast Parse ShArith ShExpr.
Import ListNotations.
Open Scope Z_scope.

Inductive loc := LV (x : nat) | LC (a : Z).
Definition loc_eq_dec : forall a b : loc, {a = b} + {a <> b}.
Proof. decide equality; [apply PeanoNat.Nat.eq_dec | apply Z.eq_dec]. Defined.
Definition store := loc -> Z.
Definition upd (l : loc) (v : Z) (s : store) : store := fun m => if loc_eq_dec m l then v else s m.
Definition mem (l : loc) (S : list loc) : bool := if in_dec loc_eq_dec l S then true else false.
Definition disj (A B : list loc) : bool := forallb (fun l => negb (mem l B)) A.

(** ** C's arithmetic on int *)
Definition inint (z : Z) : bool := (- 2 ^ 31 <=? z) && (z <? 2 ^ 31).
Definition chk (z : Z) : option Z := if inint z then Some z else None.
Definition carith (op a b : Z) : option Z :=
  if op =? PLUS then chk (a + b) else if op =? MINUS then chk (a - b) else if op =? STAR then chk (a * b)
  else if op =? SLASHC then if b =? 0 then None else chk (Z.quot a b)
  else if op =? PERCENT then if b =? 0 then None else if inint (Z.quot a b) then Some (Z.rem a b) else None
  else if op =? LSHIFT then if (0 <=? a) && (0 <=? b) && (b <? 32) then chk (Z.shiftl a b) else None
  else if op =? RSHIFT then if (0 <=? b) && (b <? 32) then Some (Z.shiftr a b) else None
  else if op =? LT then Some (truth (a <? b)) else if op =? GT then Some (truth (b <? a))
  else if op =? LT_EQ then Some (truth (a <=? b)) else if op =? GT_EQ then Some (truth (b <=? a))
  else if op =? EQ_EQ then Some (truth (a =? b)) else if op =? EXCL_EQ then Some (truth (negb (a =? b)))
  else if op =? AMP then Some (Z.land a b) else if op =? CARET then Some (Z.lxor a b)
  else if op =? BAR then Some (Z.lor a b) else None.
Definition cunary (op v : Z) : option Z :=
  if op =? MINUS then chk (- v) else if op =? TILDE then Some (Z.lnot v)
  else if op =? EXCL then Some (truth (v =? 0)) else None.

Definition res := option (Z * store * list loc * list loc).
Definition lres := option (loc * store * list loc * list loc).
Definition race (Ra Wa Rb Wb : list loc) : bool := negb (disj Wa (Rb ++ Wb) && disj Wb Ra).

(* two unsequenced operands *)
Definition cpair (ra : res) (rb : store -> res) (f : Z -> Z -> option Z) : res :=
  match ra with
  | Some (va, sa, Ra, Wa) =>
      match rb sa with
      | Some (vb, sb, Rb, Wb) =>
          if race Ra Wa Rb Wb then None
          else match f va vb with Some v => Some (v, sb, Ra ++ Rb, Wa ++ Wb) | None => None end
      | None => None
      end
  | None => None
  end.
(* a then b (6.5.17, 6.5.13-15) *)
Definition cthen (ra : res) (k : Z -> store -> res) : res :=
  match ra with
  | Some (va, sa, Ra, Wa) =>
      match k va sa with Some (v, s', R, W) => Some (v, s', Ra ++ R, Wa ++ W) | None => None end
  | None => None
  end.
Definition cmap (ra : res) (f : Z -> option Z) : res :=
  match ra with
  | Some (v, s, R, W) => match f v with Some w => Some (w, s, R, W) | None => None end
  | None => None
  end.
Definition at_addr (ra : res) : lres :=
  match ra with Some (a, s, R, W) => if 0 <=? a then Some (LC a, s, R, W) else None | None => None end.
Definition load (rl : lres) : res :=
  match rl with Some (l, s, R, W) => if mem l W then None else Some (s l, s, l :: R, W) | None => None end.
Definition modify (rl : lres) (f : Z -> option Z) (post : bool) : res :=
  match rl with
  | Some (l, s, R, W) =>
      if mem l W then None
      else match f (s l) with
           | Some v => Some (if post then s l else v, upd l v s, l :: R, l :: W)
           | None => None
           end
  | None => None
  end.

Section C.
(* offsets of the members and sizes of the structures, in words *)
Variables (moff zsz : nat -> Z).
(* the operand of ++ and -- holds an int *)
Definition one (inc : bool) (v : Z) : option Z := if inint v then chk (if inc then v + 1 else v - 1) else None.
Definition truthy (v : Z) : option Z := Some (truth (negb (v =? 0))).

Fixpoint cev (e : xe) (s : store) {struct e} : res :=
  match e with
  | XInt n | XHex n | XOct n => Some (n, s, [], [])
  | XChr c => Some (c, s, [], [])
  | XVar x => Some (s (LV x), s, [LV x], [])
  | XDeref p => load (at_addr (cev p s))
  | XIdx a b => load (at_addr (cpair (cev a s) (cev b) (carith PLUS)))
  | XMem a k => load (at_addr (cmap (cev a s) (fun v => carith PLUS v (moff k))))
  | XPar e => cev e s
  | XPlus e => cev e s
  | XCast e => cev e s
  | XUn op e => cmap (cev e s) (cunary op)
  | XPre inc e => modify (clv e s) (one inc) false
  | XPost inc e => modify (clv e s) (one inc) true
  | XSize1 => Some (1, s, [], [])
  | XSizeS k => Some (zsz k, s, [], [])
  | XAddr e => match clv e s with Some (LC a, s1, R, W) => Some (a, s1, R, W) | _ => None end
  | XBin op a b =>
      if op =? AMP_AMP then
        cthen (cev a s) (fun v s1 => if v =? 0 then Some (0, s1, [], []) else cmap (cev b s1) truthy)
      else if op =? BAR_BAR then
        cthen (cev a s) (fun v s1 => if v =? 0 then cmap (cev b s1) truthy else Some (1, s1, [], []))
      else cpair (cev a s) (cev b) (carith op)
  | XComma a b => cthen (cev a s) (fun _ s1 => cev b s1)
  | XAsg op a b =>
      match clv a s with
      | Some (l, s1, Ra, Wa) =>
          match cev b s1 with
          | Some (v, s2, Rb, Wb) =>
              if race Ra Wa Rb Wb || mem l (Wa ++ Wb) then None
              else if op =? EQ then Some (v, upd l v s2, Ra ++ Rb, l :: Wa ++ Wb)
              else match asg_op op with
                   | Some o => match carith o (s2 l) v with
                               | Some w => Some (w, upd l w s2, l :: Ra ++ Rb, l :: Wa ++ Wb)
                               | None => None
                               end
                   | None => None
                   end
          | None => None
          end
      | None => None
      end
  | XCond c a b => cthen (cev c s) (fun v s1 => if v =? 0 then cev b s1 else cev a s1)
  end
with clv (e : xe) (s : store) {struct e} : lres :=
  match e with
  | XVar x => Some (LV x, s, [], [])
  | XDeref p => at_addr (cev p s)
  | XIdx a b => at_addr (cpair (cev a s) (cev b) (carith PLUS))
  | XMem a k => at_addr (cmap (cev a s) (fun v => carith PLUS v (moff k)))
  | XPar e => clv e s
  | _ => None
  end.

(** ** Early reads and writes *)
Definition fp := option (list loc * list loc).
(* operand b after operand a *)
Definition hseq (Ra Wa : list loc) (ha hb : fp) : fp :=
  match ha, hb with
  | Some (Ha, Va), Some (Hb, Vb) =>
      if disj Hb Wa && disj Vb (Ra ++ Wa) then Some (Ha ++ Hb, Va ++ Vb) else None
  | _, _ => None
  end.
(* an address: all its reads and writes are early *)
Definition hall (r : res) (h : fp) : fp :=
  match r, h with Some (_, _, R, W), Some (H, _) => Some (R ++ H, W) | _, _ => None end.
Definition pure (r : res) (h : fp) : option (list loc) :=
  match r, h with
  | Some (a, _, R, []), Some (H, _) => if 0 <=? a then Some (R ++ H) else None
  | _, _ => None
  end.
Definition early (H : option (list loc)) : fp := match H with Some H => Some (H, []) | None => None end.
Definition oapp (a b : option (list loc)) : option (list loc) :=
  match a, b with Some a, Some b => Some (a ++ b) | _, _ => None end.

Fixpoint hst (e : xe) (s : store) {struct e} : fp :=
  match e with
  | XInt _ | XHex _ | XOct _ | XChr _ | XVar _ | XSize1 | XSizeS _ => Some ([], [])
  | XDeref p => hall (cev p s) (hst p s)
  | XIdx a b =>
      match cev a s with
      | Some (_, sa, Ra, Wa) => hall (cpair (cev a s) (cev b) (carith PLUS)) (hseq Ra Wa (hst a s) (hst b sa))
      | None => None
      end
  | XMem a k => hall (cev a s) (hst a s)
  | XPar e | XPlus e | XCast e | XUn _ e => hst e s
  | XPre _ e | XPost _ e => hlv e s
  | XAddr e => had e s
  | XBin op a b =>
      match cev a s with
      | Some (v, sa, Ra, Wa) =>
          if ((op =? AMP_AMP) && (v =? 0)) || ((op =? BAR_BAR) && negb (v =? 0))
          then hseq Ra Wa (hst a s) (early (hz b sa))
          else hseq Ra Wa (hst a s) (hst b sa)
      | None => None
      end
  | XComma a b =>
      match cev a s with Some (_, sa, Ra, Wa) => hseq Ra Wa (hst a s) (hst b sa) | None => None end
  | XAsg op a b =>
      match clv a s with Some (_, sa, Ra, Wa) => hseq Ra Wa (hlv a s) (hst b sa) | None => None end
  | XCond c a b =>
      match cev c s with
      | Some (v, sc, Rc, Wc) =>
          if v =? 0 then hseq Rc Wc (hseq Rc Wc (hst c s) (early (hz a sc))) (hst b sc)
          else match cev a sc with
               | Some (_, sa, Ra, Wa) =>
                   hseq (Rc ++ Ra) (Wc ++ Wa) (hseq Rc Wc (hst c s) (hst a sc)) (early (hz b sa))
               | None => None
               end
      | None => None
      end
  end
(* as an lvalue *)
with hlv (e : xe) (s : store) {struct e} : fp :=
  match e with
  | XVar _ => Some ([], [])
  | XDeref p => hall (cev p s) (hst p s)
  | XIdx a b =>
      match cev a s with
      | Some (_, sa, Ra, Wa) => hall (cpair (cev a s) (cev b) (carith PLUS)) (hseq Ra Wa (hst a s) (hst b sa))
      | None => None
      end
  | XMem a k => hall (cev a s) (hst a s)
  | _ => None
  end
(* under & *)
with had (e : xe) (s : store) {struct e} : fp :=
  match e with
  | XIdx a b =>
      match cev a s with Some (_, sa, Ra, Wa) => hseq Ra Wa (hst a s) (hst b sa) | None => None end
  | XMem a k => hst a s
  | XPar e => had e s
  | _ => None
  end
(* not evaluated by C: the addresses must still be defined, and have no side effect *)
with hz (e : xe) (s : store) {struct e} : option (list loc) :=
  match e with
  | XInt _ | XHex _ | XOct _ | XChr _ | XVar _ | XSize1 | XSizeS _ => Some []
  | XDeref p => pure (cev p s) (hst p s)
  | XIdx a b =>
      match cev a s with
      | Some (_, sa, Ra, Wa) => pure (cpair (cev a s) (cev b) (carith PLUS)) (hseq Ra Wa (hst a s) (hst b sa))
      | None => None
      end
  | XMem a k => pure (cmap (cev a s) (fun v => carith PLUS v (moff k))) (hst a s)
  | XPar e | XPlus e | XCast e | XUn _ e => hz e s
  | XPre _ e | XPost _ e => zlv e s
  | XAddr e => zad e s
  | XBin _ a b | XComma a b => oapp (hz a s) (hz b s)
  | XAsg _ a b => oapp (zlv a s) (hz b s)
  | XCond c a b => oapp (oapp (hz c s) (hz a s)) (hz b s)
  end
with zlv (e : xe) (s : store) {struct e} : option (list loc) :=
  match e with
  | XVar _ => Some []
  | XDeref p => pure (cev p s) (hst p s)
  | XIdx a b =>
      match cev a s with
      | Some (_, sa, Ra, Wa) => pure (cpair (cev a s) (cev b) (carith PLUS)) (hseq Ra Wa (hst a s) (hst b sa))
      | None => None
      end
  | XMem a k => pure (cmap (cev a s) (fun v => carith PLUS v (moff k))) (hst a s)
  | _ => None
  end
with zad (e : xe) (s : store) {struct e} : option (list loc) :=
  match e with
  | XIdx a b => oapp (hz a s) (hz b s)
  | XMem a k => hz a s
  | XPar e => zad e s
  | _ => None
  end.
End C.

(** ** The static fragment *)
(* a postfix increment or an address: pnut never puts parentheses around the sum it writes for them *)
Fixpoint postlike (e : xe) : bool :=
  match e with XPost _ _ | XAddr _ => true | XPar e | XPlus e | XCast e => postlike e | _ => false end.
Fixpoint minus (e : xe) : bool :=
  match e with XUn op _ => op =? MINUS | XPar e | XPlus e | XCast e => minus e | _ => false end.
Fixpoint eqlike (e : xe) : bool :=
  match e with XBin op _ _ => op =? EQ_EQ | XPar e | XPlus e => eqlike e | _ => false end.
Fixpoint commalike (e : xe) : bool :=
  match e with XComma _ _ => true | XPar e | XPlus e => commalike e | _ => false end.
(* sums and tighter *)
Fixpoint addlike (e : xe) : bool :=
  match e with
  | XBin op _ _ => existsb (Z.eqb op) (binops 1 ++ binops 2)
  | XComma _ _ | XAsg _ _ _ | XPre _ _ | XCond _ _ _ => false
  | XPar e | XPlus e => addlike e
  | _ => true
  end.
(* no && or || *)
Fixpoint nolog (e : xe) : bool :=
  match e with
  | XBin op a b => negb (op =? AMP_AMP) && negb (op =? BAR_BAR) && nolog a && nolog b
  | XDeref e | XMem e _ | XPar e | XPlus e | XCast e | XUn _ e | XPre _ e | XPost _ e | XAddr e => nolog e
  | XIdx a b | XComma a b | XAsg _ a b => nolog a && nolog b
  | XCond c a b => nolog c && nolog a && nolog b
  | _ => true
  end.
Definition all_binops : list Z := flat_map binops (seq 1 10).
Definition named (c : Z) : bool := (0 <=? c) && (c <? 128) && negb (Nat.eqb (length (character_ident c)) 4).

Fixpoint okx (e : xe) : bool :=
  match e with
  | XInt n | XHex n | XOct n => (0 <=? n) && (n <? 2 ^ 31)   (* literals of type int *)
  | XVar _ | XSize1 | XSizeS _ => true
  | XChr c => named c
  | XDeref e | XMem e _ | XPar e | XPlus e | XCast e => okx e
  | XIdx a b => okx a && okx b
  | XUn op e =>
      existsb (Z.eqb op) [MINUS; TILDE; EXCL] && okx e
      && negb (postlike e)                              (* -x++ *)
      && (if op =? MINUS then negb (minus e)            (* - -x *)
          else match e with XInt _ => false | _ => true end)   (* ~5, !5 *)
  | XPre _ e | XPost _ e => okl e
  | XAddr e => oka e
  | XBin op a b =>
      existsb (Z.eqb op) all_binops && okx a && okx b
      && (if existsb (Z.eqb op) (binops 1) then negb (postlike a) && negb (postlike b) else true)  (* x++ * 2 *)
      && (if op =? MINUS then negb (postlike b) else true)      (* a - x++ *)
      && (if op =? EQ_EQ then negb (eqlike b) else true)        (* a == (b == c) *)
  | XComma a b => okx a && okx b
  | XAsg op a b =>
      existsb (Z.eqb op) assign_ops && okl a && okx b
      && (if op =? EQ then negb (commalike b) else true)        (* a = (b, c) *)
  | XCond c a b => okx c && okx a && okx b
  end
with okl (e : xe) : bool :=
  match e with
  | XVar _ => true
  | XDeref e => okx e && nolog e
  | XIdx a b => okx a && okx b && addlike a && addlike b && nolog a && nolog b   (* a[i & 7] = v *)
  | XMem e _ => okx e && addlike e && nolog e
  | _ => false                                          (* ( *p) = v *)
  end
with oka (e : xe) : bool :=
  match e with
  | XIdx a b => okx a && okx b && addlike a && addlike b && nolog a && nolog b
  | XMem e _ => okx e && addlike e && nolog e
  | XPar e => oka e
  | _ => false
  end.
