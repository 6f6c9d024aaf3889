(** * Calls inside expressions, in whole programs compiled to shell scripts (sh.c)

    ShProg's programs have their calls already taken out of the expressions.  Here the programs have
    calls anywhere in expressions that are otherwise free of side effects: [ye].  [lift] is
    handle_side_effects_go and handle_fun_call_side_effect (sh.c:902-1049) on these expressions: it
    gives the calls in the order in which they are emitted, each with the variable that receives its
    result, and what is left of the expression; [number] and [lift_fun] are the traversal of the statements by
    comp_statement (sh.c:2110-2190), which gives each statement its temporaries.

    Simplifications: the numbers [tb + 1], [tb + 2], ... stand for the temporaries __t1, __t2, ...
    (fresh_ident, sh.c:538); the arguments and results of lift are trees, where the C code updates
    the nodes in place; && and || with calls are conditions ([YLog]), as pnut rejects them elsewhere;
    the branches of ?: have no calls (pnut rejects them, sh.c:1037); a location assigned in a statement
    has no calls; a declaration with several initialised variables is as many statements. *)
From Coq Require Import ZArith List Lia Bool.
From Verif Require Import Base Ast Parse ShArith ShExpr ShCSem ShStmt ShProg.
Import ListNotations.
Open Scope Z_scope.
Local Notation length := List.length.

(** ** Source programs *)
Inductive ye :=
| YX (e : xe)                                                 (* an expression without calls *)
| YPar (a : ye) | YPlus (a : ye) | YCast (a : ye) | YUn (op : Z) (a : ye)
| YDeref (a : ye) | YMem (a : ye) (k : nat) | YIdx (a b : ye)
| YBin (op : Z) (a b : ye) | YComma (a b : ye) | YCond (c : ye) (a b : xe)
| YCall (f : nat) (l : yes)                                   (* f(l) *)
| YSet (x f : nat) (l : yes)                                  (* x = f(l) *)
with yes := Ynil | Ycons (a : ye) (l : yes).
Scheme ye_ind2 := Induction for ye Sort Prop with yes_ind2 := Induction for yes Sort Prop.
Combined Scheme ye_yes_ind from ye_ind2, yes_ind2.
Inductive yatom :=
| YExpr (e : ye)                                              (* e; *)
| YAsgn (op : Z) (l : xe) (e : ye)                            (* l = e; l += e; ...  also: int l = e; *)
| YCallS (d : option xe) (f : nat) (l : yes)                  (* f(l);  d = f(l); *)
| YPutc (e : ye)                                              (* putchar(e); *)
| YExit (e : ye)                                              (* exit(e); *)
| YRet (e : ye)                                               (* return e; *)
| YRetCall (f : nat) (l : yes)                                (* return f(l); *)
| YRet0.                                                      (* return; *)
Inductive ycond := YLeaf (e : ye) | YLog (isand : bool) (a b : ycond).
Record yfun := YF { yparams : list nat; ylocals : list nat; ybody : stmts yatom ycond ye pc }.

(** ** What the programs mean in C: operands from left to right, a call where it stands *)
Inductive yres := YVal (v : Z) (R W : list loc) (c : cstate) | YHalt (c : cstate).
Inductive yrs := YVals (v : list Z) (R W : list loc) (c : cstate) | YHalts (c : cstate).
Section C.
Variables (moff zsz : nat -> Z).
(* as in ShProg: also ask that the order in which the shell expands words cannot be noticed *)
Variable q : bool.
Variable lim : nat.
Variable callf : nat -> list Z -> cstate -> ares cstate.

Definition ystuck (c : cstate) : yres := YHalt (chalt Stuck c).
Definition ybind (r : yres) (k : Z -> list loc -> list loc -> cstate -> yres) : yres :=
  match r with YVal v R W c => k v R W c | YHalt c => YHalt c end.
Definition yret (o : option Z) (R W : list loc) (c : cstate) : yres :=
  match o with Some v => YVal v R W c | None => ystuck c end.
(* the word of memory at address v *)
Definition yload (v : Z) (R W : list loc) (c : cstate) : yres :=
  if (0 <=? v) && negb (mem (LC v) W) then YVal (cs c (LC v)) (LC v :: R) W c else ystuck c.
Definition yx (e : xe) (c : cstate) : yres :=
  match cval moff zsz q e (cs c) with
  | Some (v, s, R, W) => YVal v R W (sets s c)
  | None => ystuck c
  end.
Fixpoint yev (e : ye) (c : cstate) {struct e} : yres :=
  match e with
  | YX e => yx e c
  | YPar a | YPlus a | YCast a => yev a c
  | YUn op a => ybind (yev a c) (fun v R W c => yret (cunary op v) R W c)
  | YDeref a => ybind (yev a c) yload
  | YMem a k => ybind (yev a c) (fun v R W c => ybind (yret (carith PLUS v (moff k)) R W c) yload)
  | YIdx a b =>
      ybind (yev a c) (fun va Ra Wa c => ybind (yev b c) (fun vb Rb Wb c =>
        if race Ra Wa Rb Wb then ystuck c
        else ybind (yret (carith PLUS va vb) (Ra ++ Rb) (Wa ++ Wb) c) yload))
  | YBin op a b =>
      ybind (yev a c) (fun va Ra Wa c => ybind (yev b c) (fun vb Rb Wb c =>
        if race Ra Wa Rb Wb then ystuck c else yret (carith op va vb) (Ra ++ Rb) (Wa ++ Wb) c))
  | YComma a b =>
      ybind (yev a c) (fun _ Ra Wa c => ybind (yev b c) (fun v Rb Wb c => YVal v (Ra ++ Rb) (Wa ++ Wb) c))
  | YCond t a b =>
      ybind (yev t c) (fun v R W c => ybind (yx (if v =? 0 then b else a) c) (fun v R2 W2 c => YVal v (R ++ R2) (W ++ W2) c))
  | YCall f l =>
      match yevs l c with
      | YVals vs R W c =>
          match callf f vs c with
          | Norm c1 => yret (cr c1) R W (CS (cs c1) (co c1) None (cx c1))
          | Halt c1 => YHalt c1
          end
      | YHalts c => YHalt c
      end
  | YSet x f l =>
      match yevs l c with
      | YVals vs R W c =>
          match callf f vs c with
          | Norm c1 => ybind (yret (cr c1) R W (CS (cs c1) (co c1) None (cx c1)))
                         (fun v R W c => YVal v R (LV x :: W) (sets (upd (LV x) v (cs c)) c))
          | Halt c1 => YHalt c1
          end
      | YHalts c => YHalt c
      end
  end
(* arguments are unsequenced *)
with yevs (l : yes) (c : cstate) {struct l} : yrs :=
  match l with
  | Ynil => YVals [] [] [] c
  | Ycons a l =>
      match yev a c with
      | YVal v Ra Wa c1 =>
          match yevs l c1 with
          | YVals vs Rb Wb c2 => if race Ra Wa Rb Wb then YHalts (chalt Stuck c2) else YVals (v :: vs) (Ra ++ Rb) (Wa ++ Wb) c2
          | YHalts c2 => YHalts c2
          end
      | YHalt c1 => YHalts c1
      end
  end.
Definition ywith (r : yres) (k : Z -> cstate -> ares cstate) : ares cstate :=
  match r with YVal v _ _ c => k v c | YHalt c => Halt c end.
Definition yact (a : yatom) (c : cstate) : ares cstate :=
  match a with
  | YExpr e => ywith (yev e c) (fun _ c => Norm c)
  | YAsgn op l (YX e) => ywith (yx (XAsg op l e) c) (fun _ c => Norm c)
  (* the old value of l is read after the calls of e: C leaves that order open *)
  | YAsgn op l e =>
      match clval moff zsz q l (cs c) with
      | Some (lo, s1, Ra, Wa) =>
          match yev e (sets s1 c) with
          | YVal v Rb Wb c2 =>
              if race Ra Wa Rb Wb || mem lo (Wa ++ Wb) then Halt (chalt Stuck c2)
              else match (if op =? EQ then Some v
                          else match asg_op op with Some o => carith o (cs c2 lo) v | None => None end) with
                   | Some w => Norm (sets (upd lo w (cs c2)) c2)
                   | None => Halt (chalt Stuck c2)
                   end
          | YHalt c2 => Halt c2
          end
      | None => Halt (chalt Stuck c)
      end
  | YCallS None f l =>
      match yevs l c with
      | YVals vs _ _ c => ccalled callf f vs c (fun _ c => Norm c)
      | YHalts c => Halt c
      end
  | YCallS (Some x) f l =>
      match clval moff zsz q x (cs c) with
      | Some (lo, s1, Ra, Wa) =>
          match yevs l (sets s1 c) with
          | YVals vs Rb Wb c2 =>
              if race Ra Wa Rb Wb then Halt (chalt Stuck c2) else ccalled callf f vs c2 (cstore lo)
          | YHalts c2 => Halt c2
          end
      | None => Halt (chalt Stuck c)
      end
  | YPutc e =>
      ywith (yev e c) (fun v c =>
        if byte v
        then if Nat.ltb (length (co c)) lim then Norm (CS (cs c) (co c ++ [v]) (cr c) (cx c)) else Halt (chalt Cut c)
        else Halt (chalt Stuck c))
  | YExit e => ywith (yev e c) (fun v c => Halt (chalt (if byte v then Exited v else Stuck) c))
  | YRet e => ywith (yev e c) (fun v c => Norm (CS (cs c) (co c) (Some v) (cx c)))
  | YRetCall f l =>
      match yevs l c with
      | YVals vs _ _ c =>
          ccalled callf f vs c (fun v c => match v with
                                           | Some v => Norm (CS (cs c) (co c) (Some v) (cx c))
                                           | None => Halt (chalt Stuck c)
                                           end)
      | YHalts c => Halt c
      end
  | YRet0 => Norm c
  end.
Fixpoint ytst (t : ycond) (c : cstate) : tres cstate :=
  match t with
  | YLeaf e => match yev e c with YVal v _ _ c => TVal (negb (v =? 0)) c | YHalt c => THalt c end
  | YLog o a b => match ytst a c with
                  | TVal x c1 => if Bool.eqb x o then ytst b c1 else TVal x c1
                  | THalt c1 => THalt c1
                  end
  end.
Definition yswv (e : ye) (c : cstate) : vres cstate :=
  match yev e c with YVal v _ _ c => VVal v c | YHalt c => VHalt c end.
End C.

Section CRun.
Variables (moff zsz : nat -> Z).
Variable q : bool.
Variable lim : nat.
Variable prg : nat -> option yfun.
(* the frame of a call is that of ShProg.ccall *)
Definition frame (d : yfun) : fdef := FD (yparams d) (ylocals d) Snil.
Fixpoint ycall (n : nat) (f : nat) (vs : list Z) (c : cstate) : ares cstate :=
  match n with
  | O => Halt (chalt Cut c)
  | S m =>
      match prg f with
      | None => Halt (chalt Stuck c)
      | Some d =>
          if Nat.eqb (length vs) (length (yparams d)) then
            match cevals yatom ycond ye pc cstate (yact moff zsz q lim (ycall m)) (ytst moff zsz q (ycall m))
                    (yswv moff zsz q (ycall m)) ckval n (ybody d) (sets (enter (frame d) vs (cs c)) c) with
            | Some (CN c1) | Some (CR c1) => Norm (sets (leave (frame d) (cs c) (cs c1)) c1)
            | Some (CH c1) => Halt c1
            | Some _ => Halt (chalt Stuck c)
            | None => Halt (chalt Cut c)
            end
          else Halt (chalt Stuck c)
      end
  end.
Definition yrun (n main : nat) (s : store) : list Z * stat :=
  match ycall n main [] (CS s [] None Running) with
  | Norm c => match cr c with
              | None => (co c, Exited 0)
              | Some v => (co c, if byte v then Exited v else Stuck)
              end
  | Halt c => (co c, cx c)
  end.
End CRun.

(** ** The calls are taken out *)
Section Lift.
Variable tb : nat.                                            (* the temporary __tk is the variable tb + k *)

(* handle_side_effects_go: the calls, what is left, gensym_ix afterwards.  sh.c:948-1049 *)
Fixpoint lift (e : ye) (k : nat) {struct e} : list hc * xe * nat :=
  match e with
  | YX e => ([], e, k)
  | YPar a => let '(cs, r, k1) := lift a k in (cs, XPar r, k1)
  | YPlus a => let '(cs, r, k1) := lift a k in (cs, XPlus r, k1)
  | YCast a => let '(cs, r, k1) := lift a k in (cs, XCast r, k1)
  | YUn op a => let '(cs, r, k1) := lift a k in (cs, XUn op r, k1)
  | YDeref a => let '(cs, r, k1) := lift a k in (cs, XDeref r, k1)
  | YMem a m => let '(cs, r, k1) := lift a k in (cs, XMem r m, k1)
  | YIdx a b => let '(ca, ra, k1) := lift a k in let '(cb, rb, k2) := lift b k1 in (ca ++ cb, XIdx ra rb, k2)
  | YBin op a b => let '(ca, ra, k1) := lift a k in let '(cb, rb, k2) := lift b k1 in (ca ++ cb, XBin op ra rb, k2)
  | YComma a b => let '(ca, ra, k1) := lift a k in let '(cb, rb, k2) := lift b k1 in (ca ++ cb, XComma ra rb, k2)
  | YCond t a b => let '(ct, rt, k1) := lift t k in (ct, XCond rt a b, k1)
  (* handle_fun_call_side_effect: the temporary of the result can also be used by the arguments, and
     those of the arguments are free afterwards.  sh.c:902-942 *)
  | YCall f l => let '(cs, rs, _) := lifts l k in (cs ++ [HC (tb + S k) f rs], XVar (tb + S k), S k)
  | YSet x f l => let '(cs, rs, _) := lifts l k in (cs ++ [HC x f rs], XVar x, k)
  end
with lifts (l : yes) (k : nat) {struct l} : list hc * list xe * nat :=
  match l with
  | Ynil => ([], [], k)
  | Ycons a l => let '(ca, ra, k1) := lift a k in let '(cl, rl, k2) := lifts l k1 in (ca ++ cl, ra :: rl, k2)
  end.
(* a statement; every statement starts with gensym_ix = 0 (sh.c:2121) *)
Definition lift_atom (a : yatom) : atom * nat :=
  match a with
  | YExpr e => let '(cs, r, k) := lift e 0 in (QExpr cs r, k)
  | YAsgn op l e =>
      let '(cs, r, k) := lift e 0 in (if op =? EQ then QAsg cs l r else QExpr cs (XAsg op l r), k)
  | YCallS d f l => let '(cs, rs, k) := lifts l 0 in (QCall cs d f rs, k)
  | YPutc e => let '(cs, r, k) := lift e 0 in (QPutc cs r, k)
  | YExit e => let '(cs, r, k) := lift e 0 in (QExit cs r, k)
  | YRet e => let '(cs, r, k) := lift e 0 in (QRet cs r, k)
  | YRetCall f l => let '(cs, rs, k) := lifts l 0 in (QRetCall cs f rs, k)
  | YRet0 => (QRet0, 0%nat)
  end.
(* both sides of && and || start with the same gensym_ix, sh.c:1018 *)
Fixpoint lift_cond (t : ycond) (k : nat) : cond :=
  match t with
  | YLeaf e => let '(cs, r, _) := lift e k in CLeaf cs r
  | YLog o a b => CLog o (lift_cond a k) (lift_cond b k)
  end.
Definition lift_val (e : ye) : sval := let '(cs, r, _) := lift e 0 in (cs, r).

(* gensym_ix where a condition is compiled: that of a for loop is compiled after the first statement
   without resetting gensym_ix (sh.c:2141-2146) *)
Definition at0 (t : ycond) : ycond * nat := (t, 0%nat).
Fixpoint number (c : stmt yatom ycond ye pc) : stmt yatom (ycond * nat) ye pc :=
  match c with
  | SEmpty => SEmpty | SBreak => SBreak | SContinue => SContinue
  | SAtom a => SAtom a
  | SIf t a b => SIf (at0 t) (number a) (number b)
  | SWhile t b => SWhile (at0 t) (number b)
  | SDo b t => SDo (number b) (at0 t)
  | SFor i t e b =>
      SFor i (option_map (fun t => (t, match i with Some a => snd (lift_atom a) | None => 0%nat end)) t) e (number b)
  | SSwitch v l => SSwitch v (numbers l)
  | SReturn a => SReturn a
  | SBlock l => SBlock (numbers l)
  | SLabel c => SLabel (number c)
  end
with numbers (l : stmts yatom ycond ye pc) : stmts yatom (ycond * nat) ye pc :=
  match l with Snil => Snil | Scons ls c r => Scons ls (number c) (numbers r) end.
End Lift.

Section Map.
Variables (A T V P A' T' V' : Type) (fa : A -> A') (ft : T -> T') (fv : V -> V').
Fixpoint smap (c : stmt A T V P) : stmt A' T' V' P :=
  match c with
  | SEmpty => SEmpty | SBreak => SBreak | SContinue => SContinue
  | SAtom a => SAtom (fa a)
  | SIf t a b => SIf (ft t) (smap a) (smap b)
  | SWhile t b => SWhile (ft t) (smap b)
  | SDo b t => SDo (smap b) (ft t)
  | SFor i t e b => SFor (option_map fa i) (option_map ft t) (option_map fa e) (smap b)
  | SSwitch v l => SSwitch (fv v) (smaps l)
  | SReturn a => SReturn (fa a)
  | SBlock l => SBlock (smaps l)
  | SLabel c => SLabel (smap c)
  end
with smaps (l : stmts A T V P) : stmts A' T' V' P :=
  match l with Snil => Snil | Scons ls c r => Scons ls (smap c) (smaps r) end.
End Map.
Arguments smap {A T V P A' T' V'}. Arguments smaps {A T V P A' T' V'}.

(* the greatest temporary of a statement: fun_gensym_ix (sh.c:540) *)
Definition hmax (tb : nat) (l : list hc) : nat := fold_right (fun h m => Nat.max (hc_t h - tb) m) 0%nat l.
Definition acalls (a : atom) : list hc :=
  match a with
  | QExpr l _ | QAsg l _ _ | QCall l _ _ _ | QPutc l _ | QExit l _ | QRet l _ | QRetCall l _ _ => l
  | QRet0 => []
  end.
Fixpoint ccalls (t : cond) : list hc := match t with CLeaf l _ => l | CLog _ a b => ccalls a ++ ccalls b end.
Section Calls.
Fixpoint scalls (c : stmt atom cond sval pc) : list hc :=
  match c with
  | SEmpty | SBreak | SContinue => []
  | SAtom a | SReturn a => acalls a
  | SIf t a b => ccalls t ++ scalls a ++ scalls b
  | SWhile t b | SDo b t => ccalls t ++ scalls b
  | SFor i t e b => match i with Some a => acalls a | None => [] end ++ match t with Some t => ccalls t | None => [] end
                    ++ match e with Some a => acalls a | None => [] end ++ scalls b
  | SSwitch v l => fst v ++ scallss l
  | SBlock l => scallss l
  | SLabel c => scalls c
  end
with scallss (l : stmts atom cond sval pc) : list hc :=
  match l with Snil => [] | Scons _ c r => scalls c ++ scallss r end.
End Calls.
(* comp_glo_fun_decl: the temporaries are local variables, after the others (save_local_vars, sh.c:729-760) *)
Definition lift_fun (tb : nat) (d : yfun) : fdef :=
  let b := smaps (fun a => fst (lift_atom tb a)) (fun t => lift_cond tb (fst t) (snd t)) (lift_val tb) (numbers tb (ybody d)) in
  FD (yparams d) (ylocals d ++ map (fun k => (tb + k)%nat) (seq 1 (hmax tb (scallss b)))) b.

(** ** The programs *)
Fixpoint xvars (e : xe) : list nat :=
  match e with
  | XVar x => [x]
  | XDeref e | XMem e _ | XPar e | XPlus e | XCast e | XUn _ e | XPre _ e | XPost _ e | XAddr e => xvars e
  | XIdx a b | XBin _ a b | XComma a b | XAsg _ a b => xvars a ++ xvars b
  | XCond c a b => xvars c ++ xvars a ++ xvars b
  | _ => []
  end.
Fixpoint yvars (e : ye) : list nat :=
  match e with
  | YX e => xvars e
  | YPar a | YPlus a | YCast a | YUn _ a | YDeref a | YMem a _ => yvars a
  | YIdx a b | YBin _ a b | YComma a b => yvars a ++ yvars b
  | YCond t a b => yvars t ++ xvars a ++ xvars b
  | YCall _ l => yvarss l
  | YSet x _ l => x :: yvarss l
  end
with yvarss (l : yes) : list nat := match l with Ynil => [] | Ycons a l => yvars a ++ yvarss l end.
(* without calls *)
Fixpoint nocall (e : ye) : bool :=
  match e with
  | YX _ => true
  | YPar a | YPlus a | YCast a | YUn _ a | YDeref a | YMem a _ | YCond a _ _ => nocall a
  | YIdx a b | YBin _ a b | YComma a b => nocall a && nocall b
  | YCall _ _ | YSet _ _ _ => false
  end.
Fixpoint nocalls (l : yes) : bool := match l with Ynil => true | Ycons a l => nocall a && nocalls l end.
(* the variables that receive a result directly *)
Fixpoint ysets (e : ye) : list nat :=
  match e with
  | YX _ => []
  | YPar a | YPlus a | YCast a | YUn _ a | YDeref a | YMem a _ | YCond a _ _ => ysets a
  | YIdx a b | YBin _ a b | YComma a b => ysets a ++ ysets b
  | YCall _ l => ysetss l
  | YSet x _ l => x :: ysetss l
  end
with ysetss (l : yes) : list nat := match l with Ynil => [] | Ycons a l => ysets a ++ ysetss l end.
(* no memory *)
Fixpoint nomem (e : xe) : bool :=
  match e with
  | XInt _ | XHex _ | XOct _ | XChr _ | XVar _ | XSize1 | XSizeS _ => true
  | XPar e | XPlus e | XCast e | XUn _ e => nomem e
  | XBin _ a b | XComma a b => nomem a && nomem b
  | XCond c a b => nomem c && nomem a && nomem b
  | _ => false
  end.
(* no side effects; what C may leave unevaluated does not use memory *)
Fixpoint tame (e : xe) : bool :=
  match e with
  | XInt _ | XHex _ | XOct _ | XChr _ | XVar _ | XSize1 | XSizeS _ => true
  | XDeref e | XMem e _ | XPar e | XPlus e | XCast e | XUn _ e => tame e
  | XAddr (XIdx a b) => tame a && tame b
  | XAddr (XMem a _) => tame a
  | XIdx a b | XComma a b => tame a && tame b
  | XBin op a b => tame a && tame b && (if (op =? AMP_AMP) || (op =? BAR_BAR) then nomem b else true)
  | XCond c a b => tame c && tame a && tame b && nomem a && nomem b
  | _ => false
  end.
Definition tamel (e : xe) : bool :=
  match e with XVar _ => true | XDeref a | XMem a _ => tame a | XIdx a b => tame a && tame b | _ => false end.
Section Own.
Variable own : nat -> bool.                                   (* the local variables of the function *)
(* what a call cannot change: no memory and only local variables *)
Definition stillx (e : xe) : bool := nomem e && forallb own (xvars e).
Definition stilll (e : xe) : bool :=
  match e with XVar _ => true | XDeref a | XMem a _ => stillx a | XIdx a b => stillx a && stillx b | _ => false end.
Fixpoint still (e : ye) : bool :=
  match e with
  | YX e => stillx e
  | YPar a | YPlus a | YCast a | YUn _ a => still a
  | YBin _ a b | YComma a b => still a && still b
  | YCond t a b => still t && stillx a && stillx b
  | YCall _ _ => true
  | YSet x _ _ => own x
  | YDeref _ | YMem _ _ | YIdx _ _ => false
  end.
Definition disjn (a b : list nat) : bool := forallb (fun x => negb (existsb (Nat.eqb x) b)) a.
(* what is left of a call in the same expression can wait for it *)
Fixpoint reads (e : ye) : list nat :=
  match e with
  | YX e => xvars e
  | YPar a | YPlus a | YCast a | YUn _ a | YDeref a | YMem a _ => reads a
  | YIdx a b | YBin _ a b | YComma a b => reads a ++ reads b
  | YCond t a b => reads t ++ xvars a ++ xvars b
  | YCall _ _ => []
  | YSet x _ _ => [x]
  end.
Definition waits (a : ye) (nc : bool) (sets : list nat) : bool := nc || (still a && disjn sets (reads a)).
Fixpoint pure (e : ye) : bool :=
  match e with
  | YX e => tame e
  | YPar a | YPlus a | YCast a | YUn _ a | YDeref a | YMem a _ => pure a
  | YIdx a b | YComma a b => pure a && pure b && waits a (nocall b) (ysets b)
  | YBin op a b => pure a && pure b && waits a (nocall b) (ysets b) && negb (op =? AMP_AMP) && negb (op =? BAR_BAR)
  | YCond t a b => pure t && tame a && tame b && nomem a && nomem b
  | YCall _ l | YSet _ _ l => pures l
  end
with pures (l : yes) : bool :=
  match l with Ynil => true | Ycons a l => pure a && pures l && waits a (nocalls l) (ysetss l) end.
Fixpoint allx (l : yes) : bool := match l with Ynil => true | Ycons (YX _) l => allx l | Ycons _ _ => false end.
(* an expression: without calls it can be anything *)
Definition ok_ye (e : ye) : bool := match e with YX _ => true | e => pure e end.
Definition ok_args (l : yes) : bool := allx l || pures l.
Definition ok_lv (l : xe) (nc : bool) (sets : list nat) : bool :=
  tamel l && (nc || (stilll l && disjn sets (xvars l))).
(* the scope of a variable *)
Variable glob : nat -> bool.
Variable tb : nat.
Definition vis (x : nat) : bool := Nat.leb x tb && (own x || glob x).
Definition ok_yatom (a : yatom) : bool :=
  match a with
  | YExpr e | YPutc e | YExit e => ok_ye e && forallb vis (yvars e)
  | YAsgn op l (YX e) => forallb vis (xvars l) && forallb vis (xvars e)
  | YAsgn op l e => pure e && ok_lv l (nocall e) (ysets e) && forallb vis (xvars l) && forallb vis (yvars e)
  | YCallS None f l => ok_args l && forallb vis (yvarss l)
  | YCallS (Some x) f l =>
      ok_args l && (allx l || ok_lv x (nocalls l) (ysetss l)) && forallb vis (xvars x) && forallb vis (yvarss l)
  | YRet _ | YRetCall _ _ | YRet0 => false
  end.
Definition ok_yret (a : yatom) : bool :=
  match a with
  | YRet e => ok_ye e && forallb vis (yvars e)
  | YRetCall f l => ok_args l && forallb vis (yvarss l)
  | YRet0 => true
  | _ => false
  end.
Fixpoint ok_ycond (t : ycond) : bool :=
  match t with YLeaf e => ok_ye e && forallb vis (yvars e) | YLog _ a b => ok_ycond a && ok_ycond b end.
Definition ok_yval (e : ye) : bool := ok_ye e && forallb vis (yvars e).
End Own.
Definition owns (d : yfun) (x : nat) : bool := existsb (Nat.eqb x) (yparams d ++ ylocals d).
(* [glob]: the global variables; the variables are numbered up to tb *)
Definition ok_yfun (tb : nat) (glob : nat -> bool) (d : yfun) : Prop :=
  (forall x, In x (yparams d ++ ylocals d) -> (x <= tb)%nat /\ glob x = false) /\
  everys yatom ycond ye pc (ok_yatom (owns d) glob tb) (ok_yret (owns d) glob tb) (ok_ycond (owns d) glob tb)
    (ok_yval (owns d) glob tb) (ybody d) = true.
