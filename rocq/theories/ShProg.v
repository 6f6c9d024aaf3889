(** * Whole programs compiled to shell scripts (sh.c)

    The functions of a C program, their statements, conditions, expressions, calls, output and exit,
    compiled by comp_glo_fun_decl, comp_statement, comp_assignment, comp_return, comp_fun_call_code,
    comp_putchar_inline and comp_rvalue (sh.c:1387-2290) and run by a POSIX shell.  The control flow
    is that of ShStmt (C28), the expression texts are those of ShExpr (C19), the grammar of conditions
    is that of ShCall (C27), the local variables are saved and restored as in ShLocals (C21).

    Source language.  Calls are already taken out of the expressions, as handle_side_effects does
    (C27): a statement carries the list of its calls, each with the temporary that receives the
    result, and then an expression without calls.  The temporaries are variables of the function like
    the others.  Variables, functions and structure members are numbers; [vn], [mn], [zn] are their
    shell names (C26).

    Simplifications: a command is a constructor of [kcmd] that carries its words (lists of items of
    ShArith, as expansions are found in them); let and endlet (sh-runtime.c:88-107) have their meaning
    on variables and not their text; the indentation, comments, set -e -u -f (sh.c:2509) and the
    definitions of the runtime library are not modelled; a literal argument of putchar is compiled
    like any other (pnut writes printable ones out, sh.c:1532); main has no parameters and returns
    int; string literals, arrays with a size and global initialisers are not modelled: a script starts
    in any state of its variables. *)
From Coq Require Import ZArith List Lia Bool.
From Verif Require Import Base Numerals Ast Parse ShArith ShExpr ShCSem ShSem ShStmt.
From Verif Require ShCall.
Import ListNotations.
Open Scope Z_scope.
Local Notation length := List.length.

(** ** Programs *)
(* t = f(a): a call that was taken out *)
Record hc := HC { hc_t : nat; hc_f : nat; hc_a : list xe }.
Inductive atom :=
| QExpr (cs : list hc) (e : xe)                                (* e; *)
| QAsg (cs : list hc) (l e : xe)                               (* l = e;  also: int l = e; *)
| QCall (cs : list hc) (d : option xe) (f : nat) (a : list xe) (* f(a);  l = f(a); *)
| QPutc (cs : list hc) (e : xe)                                (* putchar(e); *)
| QExit (cs : list hc) (e : xe)                                (* exit(e); *)
| QRet (cs : list hc) (e : xe)                                 (* return e; *)
| QRetCall (cs : list hc) (f : nat) (a : list xe)              (* return f(a); *)
| QRet0.                                                       (* return; *)
(* conditions: the calls of a leaf are made when the leaf is evaluated *)
Inductive cond := CLeaf (cs : list hc) (e : xe) | CLog (isand : bool) (a b : cond).
Definition sval := (list hc * xe)%type.                        (* the value of a switch *)
(* case constants *)
Definition okp (e : xe) : bool :=
  okx e && match e with XInt _ | XHex _ | XOct _ | XChr _ | XUn _ (XInt _) => true | _ => false end.
Record pc := PC { pe : xe; pe_ok : okp pe = true }.
Record fdef := FD { fparams : list nat; flocals : list nat; fbody : stmts atom cond sval pc }.

(* contains_side_effects, sh.c:966-1006: set for ++, -- and the compound assignments, but not for = *)
Fixpoint cse (e : xe) : bool :=
  match e with
  | XPre _ _ | XPost _ _ => true
  | XAsg op a b => negb (op =? EQ) || cse a || cse b
  | XDeref e | XMem e _ | XPar e | XPlus e | XCast e | XUn _ e | XAddr e => cse e
  | XIdx a b | XBin _ a b | XComma a b => cse a || cse b
  | XCond c a b => cse c || cse a || cse b
  | _ => false
  end.
Fixpoint noeff (e : xe) : bool :=
  match e with
  | XPre _ _ | XPost _ _ | XAsg _ _ _ => false
  | XDeref e | XMem e _ | XPar e | XPlus e | XCast e | XUn _ e | XAddr e => noeff e
  | XIdx a b | XBin _ a b | XComma a b => noeff a && noeff b
  | XCond c a b => noeff c && noeff a && noeff b
  | _ => true
  end.

(** ** Code *)
Inductive kcmd :=
| KColon (w : list item)                                       (* : w *)
| KSet (x : name) (w : list item)                              (* x=w *)
| KCall (f : nat) (d : option (list item)) (ws : list (list item))   (* _f d w1 ... wn;  None: $1 *)
| KRet (w : list item)                                         (* : $(($1 = w)) *)
| KPutc (w : list item)                                        (* printf \\$((w/64))$((w/8%8))$((w%8)) *)
| KExit (w : list item)                                        (* exit w *)
| KLet (x : name) (k : option nat).                            (* let x $k;  let x *)
(* [ w op v ] *)
Inductive leaf := Leaf (op : Z) (w v : list item).
Notation ctok := (ShCall.tok leaf unit unit unit unit kcmd).
Notation clist := (ShCall.clist leaf unit unit unit unit kcmd).
Notation elem := (ShCall.elem leaf unit unit unit unit kcmd).
Notation andor := (ShCall.andor leaf unit unit unit unit kcmd).
Notation simple := (ShCall.simple leaf unit unit unit unit kcmd).
Definition tcall (k : kcmd) : simple := ShCall.SCall (ShCall.TVr tt) k ShCall.Rnil.
Definition ttest (l : leaf) : simple := ShCall.STest (ShCall.RLf l).

Section Code.
Variables (vn mn zn : nat -> name).
Notation rv := (comp_rvalue_go vn mn zn). Notation lv := (comp_lvalue vn mn zn).

(* sh.c:1727-1777 comp_fun_call_code, 1502 fun_call_params; IDENTIFIER_EMPTY is "__" (sh.c:493) *)
Definition none_name : name := [95; 95].
Definition hgen (h : hc) : kcmd := KCall (hc_f h) (Some (chs (vn (hc_t h)))) (map (fun e => rv e false 0) (hc_a h)).
Definition is_asg (e : xe) : bool := match e with XAsg op _ _ => op =? EQ | _ => false end.
(* comp_statement's last branch (sh.c:2180), comp_assignment 1784, comp_putchar_inline 1528, exit 1752,
   comp_return 2039-2055 *)
Definition gen (a : atom) : list kcmd :=
  match a with
  | QExpr cs e => map hgen cs ++ if cse e then [KColon (rv e false 0)] else []
  | QAsg cs l e =>
      map hgen cs ++
      [ match l with
        | XVar x => if is_asg e then KColon [Ar (lv l ++ op_to_str EQ ++ rv e true 0)] else KSet (vn x) (rv e false 0)
        | _ => KColon [Ar (lv l ++ op_to_str EQ ++ rv e true 0)]
        end ]
  | QCall cs d f a =>
      map hgen cs ++ [KCall f (Some (match d with Some l => lv l | None => chs none_name end)) (map (fun e => rv e false 0) a)]
  | QPutc cs e =>
      map hgen cs ++ [KPutc (match e with XVar x => chs (vn x) | _ => chs [40] ++ rv e true 0 ++ chs [41] end)]
  | QExit cs e => map hgen cs ++ [KExit (rv e false 0)]
  | QRet cs e => map hgen cs ++ [KRet (rv e true 0)]
  | QRetCall cs f a => map hgen cs ++ [KCall f None (map (fun e => rv e false 0) a)]
  | QRet0 => []
  end.
Definition vgen (v : sval) : list kcmd := map hgen (fst v).

(* comp_rvalue_go in a test (sh.c:1204-1385), without && and || *)
Definition cmp_ops : list Z := [EQ_EQ; EXCL_EQ; LT; GT; LT_EQ; GT_EQ].
Fixpoint leaf_of (e : xe) : leaf :=
  match e with
  | XPar e | XPlus e | XCast e => leaf_of e
  | XBin op a b => if existsb (Z.eqb op) cmp_ops then Leaf op (rv a false op) (rv b false op)
                   else Leaf EXCL_EQ (rv (XBin op a b) false 0) (chs [48])
  | e => Leaf EXCL_EQ (rv e false 0) (chs [48])
  end.
Definition calltoks (cs : list hc) : list ctok :=
  flat_map (fun h => [ShCall.KSimple (tcall (hgen h)); ShCall.KSemi]) cs.
(* { code; } around an operand with the other operator, sh.c:1350-1366 *)
Definition brace (o : bool) (t : cond) (code : list ctok) : list ctok :=
  match t with
  | CLog o' _ _ => if Bool.eqb o o' then code else ShCall.KOpen :: code ++ [ShCall.KSemi; ShCall.KClose]
  | CLeaf _ _ => code
  end.
(* with_prefixed_side_effects, sh.c:1141-1158 *)
Fixpoint inner (t : cond) : list ctok :=
  match t with
  | CLeaf cs e =>
      match cs with
      | [] => [ShCall.KSimple (ttest (leaf_of e))]
      | _ => ShCall.KOpen :: calltoks cs ++ [ShCall.KSimple (ttest (leaf_of e))] ++ [ShCall.KSemi; ShCall.KClose]
      end
  | CLog o a b => brace o a (inner a) ++ ShCall.KLog o :: brace o b (inner b)
  end.
(* comp_rvalue in a test, sh.c:1411-1420: the calls of the whole condition come first *)
Definition ctoks (t : cond) : list ctok :=
  match t with
  | CLeaf cs e => calltoks cs ++ [ShCall.KSimple (ttest (leaf_of e))]
  | CLog _ _ _ => inner t
  end.

(* comp_glo_fun_decl, sh.c:2192-2285; let_params 709, save_local_vars 729 *)
Fixpoint let_params (k : nat) (ps : list nat) : list kcmd :=
  match ps with [] => [] | x :: r => KLet (vn x) (Some k) :: let_params (S k) r end.
Definition pre (d : fdef) : list kcmd := let_params 2 (fparams d) ++ map (fun x => KLet (vn x) None) (flocals d).
Definition owned (d : fdef) : list nat := fparams d ++ flocals d.
Definition fcode (d : fdef) : option (list (line cond sval pc kcmd)) :=
  comp_fun atom cond sval pc kcmd gen vgen (pre d) (fbody d).
End Code.

(** ** The shell *)
(* how a run stands: running; ended with an exit status; cut off; failed *)
Inductive stat := Running | Exited (z : Z) | Cut | Stuck.
Record hstate := HS { hg : vars; ho : list Z; hx : stat }.
Definition undec (l : list Z) : option Z :=
  match l with
  | 45 :: r => match numeral_value 10 r with Some v => Some (- v) | None => None end
  | _ => numeral_value 10 l
  end.
Definition byte (v : Z) : bool := (0 <=? v) && (v <? 256).
Definition SP : name := [95; 95; 83; 80].                      (* __SP *)
Definition TMP : name := [95; 95; 116; 109; 112].              (* __tmp *)
Definition CODE : name := [95; 95; 99; 111; 100; 101].         (* __code *)
Definition stk (k : Z) : name := [95; 95] ++ decimal k.        (* __1, __2, ... *)

Section Shell.
(* word expansion, readonly variables, the names of the C variables *)
Variable sev : list item -> vars -> option (list Z * vars).
Variable ro : name -> option Z.
Variables (vn mn zn : nat -> name).
(* the run is cut when it would write more than this many bytes *)
Variable lim : nat.
(* the shell's reading of a condition *)
Variable trd : cond -> clist.
Notation rv := (comp_rvalue_go vn mn zn).

Definition overlay (g : vars) : vars := fun n => match ro n with Some v => v | None => g n end.
Definition setg (g : vars) (h : hstate) : hstate := HS g (ho h) (hx h).
Definition halt (x : stat) (h : hstate) : ares hstate := Halt (HS (hg h) (ho h) x).
Definition wexp (w : list item) (h : hstate) : option (list Z * hstate) :=
  match sev w (overlay (hg h)) with Some (l, g) => Some (l, setg g h) | None => None end.
Definition wval (w : list item) (h : hstate) : option (Z * hstate) :=
  match wexp w h with
  | Some (l, h1) => match undec l with Some v => Some (v, h1) | None => None end
  | None => None
  end.
Fixpoint wvals (ws : list (list item)) (h : hstate) : option (list Z * hstate) :=
  match ws with
  | [] => Some ([], h)
  | w :: r => match wval w h with
              | Some (v, h1) => match wvals r h1 with Some (vs, h2) => Some (v :: vs, h2) | None => None end
              | None => None
              end
  end.
(* sh-runtime.c:88-92: push the variable, then set it *)
Definition slet (x : name) (v : Z) (g : vars) : vars :=
  let sp := g SP + 1 in
  let g1 := setv SP sp g in
  setv x v (setv (stk sp) (g1 x) g1).
(* sh-runtime.c:96-106 *)
Definition spop (g : vars) (x : name) : vars :=
  let sp := g SP - 1 in
  let g1 := setv SP sp g in
  setv x (g1 (stk (sp + 1))) g1.
Definition endlet (r : name) (xs : list name) (g : vars) : vars :=
  let g2 := fold_left spop xs (setv TMP (g r) g) in
  setv r (g2 TMP) g2.
(* restore_local_vars, sh.c:762-796: nothing when there is nothing to restore *)
Definition srestore (xs : list nat) (r : name) (h : hstate) : hstate :=
  match xs with
  | [] => h
  | xs => setg (endlet r (rev (map vn xs)) (hg h)) h
  end.

(* one command in a function called with $1 = r and $2, $3, ... = ps *)
Variable callf : nat -> name -> list Z -> hstate -> ares hstate.
Variable r : name.
Variable ps : list Z.
Definition scmd (k : kcmd) (h : hstate) : ares hstate :=
  match k with
  | KColon w => match wexp w h with Some (_, h1) => Norm h1 | None => halt Stuck h end
  | KSet x w => match wval w h with Some (v, h1) => Norm (setg (setv x v (hg h1)) h1) | None => halt Stuck h end
  | KCall f d ws =>
      match match d with Some w => wexp w h | None => Some (r, h) end with
      | Some (n, h1) => match wvals ws h1 with Some (vs, h2) => callf f n vs h2 | None => halt Stuck h end
      | None => halt Stuck h
      end
  | KRet w => match wexp [Ar (chs r ++ op_to_str EQ ++ w)] h with Some (_, h1) => Norm h1 | None => halt Stuck h end
  | KPutc w =>
      match wexp [Ar (w ++ chs [47; 54; 52]); Ar (w ++ chs [47; 56; 37; 56]); Ar (w ++ chs [37; 56])] h with
      | Some ([a; b; c], h1) =>                                  (* printf \abc: a byte in octal *)
          match numeral_value 8 [a; b; c] with
          | Some v => if byte v
                      then if Nat.ltb (length (ho h1)) lim then Norm (HS (hg h1) (ho h1 ++ [v]) (hx h1)) else halt Cut h1
                      else halt Stuck h
          | None => halt Stuck h
          end
      | _ => halt Stuck h
      end
  | KExit w => match wval w h with
               | Some (v, h1) => if byte v then halt (Exited v) h1 else halt Stuck h
               | None => halt Stuck h
               end
  | KLet x k =>
      match match k with Some k => nth_error ps (k - 2) | None => Some 0 end with
      | Some v => Norm (setg (slet x v (hg h)) h)
      | None => halt Stuck h
      end
  end.
Definition compare (op a b : Z) : option bool :=
  if op =? EQ_EQ then Some (a =? b) else if op =? EXCL_EQ then Some (negb (a =? b))
  else if op =? LT then Some (a <? b) else if op =? GT then Some (b <? a)
  else if op =? LT_EQ then Some (a <=? b) else if op =? GT_EQ then Some (b <=? a) else None.
Definition sleaf (l : leaf) (h : hstate) : tres hstate :=
  match l with
  | Leaf op w v =>
      match wval w h with
      | Some (a, h1) =>
          match wval v h1 with
          | Some (b, h2) => match compare op a b with Some t => TVal t h2 | None => THalt (HS (hg h) (ho h) Stuck) end
          | None => THalt (HS (hg h) (ho h) Stuck)
          end
      | None => THalt (HS (hg h) (ho h) Stuck)
      end
  end.
(* POSIX 2.9.3: lists, && and ||; the exit status of a call is 0 (nothing depends on it) *)
Definition ssimple (x : simple) (h : hstate) : tres hstate :=
  match x with
  | ShCall.SCall _ k _ => match scmd k h with Norm h1 => TVal true h1 | Halt h1 => THalt h1 end
  | ShCall.STest (ShCall.RLf l) => sleaf l h
  | ShCall.STest _ => THalt (HS (hg h) (ho h) Stuck)
  end.
Fixpoint selem (e : elem) (h : hstate) : tres hstate :=
  match e with ShCall.ESimple x => ssimple x h | ShCall.EGroup c => sclist c h end
with sandor (a : andor) (h : hstate) : tres hstate :=
  match a with
  | ShCall.AOne e => selem e h
  | ShCall.ALog a o e => match sandor a h with
                         | TVal b h1 => if Bool.eqb b o then selem e h1 else TVal b h1
                         | THalt h1 => THalt h1
                         end
  end
with sclist (c : clist) (h : hstate) : tres hstate :=
  match c with
  | ShCall.LOne a => sandor a h
  | ShCall.LSeq c a => match sclist c h with TVal _ h1 => sandor a h1 | THalt h1 => THalt h1 end
  end.
Definition stst (t : cond) (h : hstate) : tres hstate := sclist (trd t) h.
Definition sword (v : sval) (h : hstate) : vres hstate :=
  match wval (rv (snd v) false 0) h with Some (z, h1) => VVal z h1 | None => VHalt (HS (hg h) (ho h) Stuck) end.
Definition spat (p : pc) (h : hstate) (z : Z) : bool :=
  match wexp (rv (pe p) false 0) h with
  | Some (l, _) => if list_eq_dec Z.eq_dec l (decimal z) then true else false
  | None => false
  end.
End Shell.

(* the script: [frd f] is the shell's reading of the body of function f, [loc f] are the variables that
   the endlet of function f lists; at most n nested calls, n rounds for each loop and lim bytes of output *)
Section Script.
Variable sev : list item -> vars -> option (list Z * vars).
Variable ro : name -> option Z.
Variables (vn mn zn : nat -> name).
Variable lim : nat.
Variable trd : cond -> clist.
Variable loc : nat -> option (list nat).
Variable frd : nat -> list (sh cond sval pc kcmd).

Fixpoint scall (n : nat) (f : nat) (r : name) (vs : list Z) (h : hstate) : ares hstate :=
  match n with
  | O => halt Cut h
  | S m =>
      match loc f with
      | None => halt Stuck h
      | Some xs =>
          match hevals cond sval pc kcmd hstate (scmd sev ro lim (scall m) r vs) (stst sev ro lim trd (scall m) r vs)
                  (sword sev ro vn mn zn) (spat sev ro vn mn zn) (srestore vn xs r) n (frd f) h with
          | Some (ON h1) | Some (OR h1) => Norm h1
          | Some (OH h1) => Halt h1
          | Some _ => halt Stuck h
          | None => halt Cut h
          end
      end
  end.
(* epilogue, sh.c:2550: __code=0; _main __code; exit $__code *)
Definition srun (n main : nat) (g : vars) : list Z * stat :=
  match scall n main CODE [] (HS (setv CODE 0 g) [] Running) with
  | Norm h => if byte (hg h CODE) then (ho h, Exited (hg h CODE)) else (ho h, Stuck)
  | Halt h => (ho h, hx h)
  end.
End Script.

(** ** C *)
Record cstate := CS { cs : store; co : list Z; cr : option Z; cx : stat }.

Section C.
Variables (moff zsz : nat -> Z).
(* [q]: also ask that the order in which the shell expands words cannot be noticed ([hst], C19) *)
Variable q : bool.
Variable lim : nat.

Definition cval (e : xe) (s : store) : res :=
  match cev moff zsz e s with
  | Some x => if q then match hst moff zsz e s with Some _ => Some x | None => None end else Some x
  | None => None
  end.
Definition clval (e : xe) (s : store) : lres :=
  match clv moff zsz e s with
  | Some x => if q then match hlv moff zsz e s with Some _ => Some x | None => None end else Some x
  | None => None
  end.
(* arguments are unsequenced *)
Fixpoint cargs (l : list xe) (s : store) : option (list Z * store * list loc * list loc) :=
  match l with
  | [] => Some ([], s, [], [])
  | e :: r =>
      match cval e s with
      | Some (v, s1, Ra, Wa) =>
          match cargs r s1 with
          | Some (vs, s2, Rb, Wb) => if race Ra Wa Rb Wb then None else Some (v :: vs, s2, Ra ++ Rb, Wa ++ Wb)
          | None => None
          end
      | None => None
      end
  end.

Definition sets (s : store) (c : cstate) : cstate := CS s (co c) (cr c) (cx c).
Definition chalt (x : stat) (c : cstate) : cstate := CS (cs c) (co c) (cr c) x.
Definition islocal (d : fdef) (l : loc) : bool :=
  match l with LV x => existsb (Nat.eqb x) (fparams d ++ flocals d) | LC _ => false end.
(* the parameters get the arguments, the other local variables start as 0 *)
Fixpoint bind (xs : list nat) (vs : list Z) (s : store) : store :=
  match xs, vs with x :: xs, v :: vs => bind xs vs (upd (LV x) v s) | _, _ => s end.
Definition enter (d : fdef) (vs : list Z) (s : store) : store :=
  bind (flocals d) (map (fun _ => 0) (flocals d)) (bind (fparams d) vs s).
(* afterwards the caller has its own local variables again *)
Definition leave (d : fdef) (s0 s1 : store) : store := fun l => if islocal d l then s0 l else s1 l.

Variable callf : nat -> list Z -> cstate -> ares cstate.
(* the call and what is done with its result *)
Definition ccalled (f : nat) (vs : list Z) (c : cstate) (k : option Z -> cstate -> ares cstate) : ares cstate :=
  match callf f vs c with
  | Norm c1 => k (cr c1) (CS (cs c1) (co c1) None (cx c1))
  | Halt c1 => Halt c1
  end.
(* f(a), and its result to a location; without a result, nothing can be stored *)
Definition cstore (l : loc) (v : option Z) (c : cstate) : ares cstate :=
  match v with Some v => Norm (sets (upd l v (cs c)) c) | None => Halt (chalt Stuck c) end.
Definition chc (h : hc) (c : cstate) : ares cstate :=
  match cargs (hc_a h) (cs c) with
  | Some (vs, s, _, _) => ccalled (hc_f h) vs (sets s c) (cstore (LV (hc_t h)))
  | None => Halt (chalt Stuck c)
  end.
Fixpoint chcs (l : list hc) (c : cstate) : ares cstate :=
  match l with [] => Norm c | h :: r => match chc h c with Norm c1 => chcs r c1 | Halt c1 => Halt c1 end end.
Definition cthen (a : ares cstate) (k : cstate -> ares cstate) : ares cstate :=
  match a with Norm c => k c | Halt c => Halt c end.
Definition cwith (e : xe) (c : cstate) (k : Z -> cstate -> ares cstate) : ares cstate :=
  match cval e (cs c) with Some (v, s, _, _) => k v (sets s c) | None => Halt (chalt Stuck c) end.
Definition cact (a : atom) (c : cstate) : ares cstate :=
  match a with
  | QExpr l e => cthen (chcs l c) (fun c => cwith e c (fun _ c => Norm c))
  | QAsg l x e => cthen (chcs l c) (fun c => cwith (XAsg EQ x e) c (fun _ c => Norm c))
  | QCall l None f a =>
      cthen (chcs l c) (fun c =>
        match cargs a (cs c) with
        | Some (vs, s, _, _) => ccalled f vs (sets s c) (fun _ c => Norm c)
        | None => Halt (chalt Stuck c)
        end)
  | QCall l (Some x) f a =>                                       (* the location, the arguments, the call *)
      cthen (chcs l c) (fun c =>
        match clval x (cs c) with
        | Some (lo, s1, Ra, Wa) =>
            match cargs a s1 with
            | Some (vs, s2, Rb, Wb) =>
                if race Ra Wa Rb Wb then Halt (chalt Stuck c) else ccalled f vs (sets s2 c) (cstore lo)
            | None => Halt (chalt Stuck c)
            end
        | None => Halt (chalt Stuck c)
        end)
  | QPutc l e =>
      cthen (chcs l c) (fun c => cwith e c (fun v c =>
        if byte v
        then if Nat.ltb (length (co c)) lim then Norm (CS (cs c) (co c ++ [v]) (cr c) (cx c)) else Halt (chalt Cut c)
        else Halt (chalt Stuck c)))
  | QExit l e =>
      cthen (chcs l c) (fun c => cwith e c (fun v c => Halt (chalt (if byte v then Exited v else Stuck) c)))
  | QRet l e => cthen (chcs l c) (fun c => cwith e c (fun v c => Norm (CS (cs c) (co c) (Some v) (cx c))))
  | QRetCall l f a =>
      cthen (chcs l c) (fun c =>
        match cargs a (cs c) with
        | Some (vs, s, _, _) =>
            ccalled f vs (sets s c) (fun v c => match v with
                                                | Some v => Norm (CS (cs c) (co c) (Some v) (cx c))
                                                | None => Halt (chalt Stuck c)
                                                end)
        | None => Halt (chalt Stuck c)
        end)
  | QRet0 => Norm c
  end.
Fixpoint ctst (t : cond) (c : cstate) : tres cstate :=
  match t with
  | CLeaf l e =>
      match chcs l c with
      | Norm c1 => match cval e (cs c1) with
                   | Some (v, s, _, _) => TVal (negb (v =? 0)) (sets s c1)
                   | None => THalt (chalt Stuck c1)
                   end
      | Halt c1 => THalt c1
      end
  | CLog o a b => match ctst a c with
                  | TVal x c1 => if Bool.eqb x o then ctst b c1 else TVal x c1
                  | THalt c1 => THalt c1
                  end
  end.
Definition cswv (v : sval) (c : cstate) : vres cstate :=
  match chcs (fst v) c with
  | Norm c1 => match cval (snd v) (cs c1) with
               | Some (z, s, _, _) => VVal z (sets s c1)
               | None => VHalt (chalt Stuck c1)
               end
  | Halt c1 => VHalt c1
  end.
Definition ckval (p : pc) : Z :=
  match pe p with
  | XInt n | XHex n | XOct n => n
  | XChr c => c
  | XUn op (XInt n) => - n
  | _ => 0
  end.
End C.

Section CRun.
Variables (moff zsz : nat -> Z).
Variable q : bool.
Variable lim : nat.
Variable prg : nat -> option fdef.
Fixpoint ccall (n : nat) (f : nat) (vs : list Z) (c : cstate) : ares cstate :=
  match n with
  | O => Halt (chalt Cut c)
  | S m =>
      match prg f with
      | None => Halt (chalt Stuck c)
      | Some d =>
          if Nat.eqb (length vs) (length (fparams d)) then
            match cevals atom cond sval pc cstate (cact moff zsz q lim (ccall m)) (ctst moff zsz q (ccall m))
                    (cswv moff zsz q (ccall m)) ckval n (fbody d) (sets (enter d vs (cs c)) c) with
            | Some (CN c1) | Some (CR c1) => Norm (sets (leave d (cs c) (cs c1)) c1)
            | Some (CH c1) => Halt c1
            | Some _ => Halt (chalt Stuck c)
            | None => Halt (chalt Cut c)
            end
          else Halt (chalt Stuck c)
      end
  end.
(* the output and how the run ended; a main that reaches its end returns 0 (5.1.2.2.3) *)
Definition crun (n main : nat) (s : store) : list Z * stat :=
  match ccall n main [] (CS s [] None Running) with
  | Norm c => match cr c with
              | None => (co c, Exited 0)
              | Some v => (co c, if byte v then Exited v else Stuck)
              end
  | Halt c => (co c, cx c)
  end.
End CRun.

(** ** The programs for which the code is right *)
(* the leaf of a condition is not && or || under parentheses, plus signs and casts: it would be compiled as such *)
Fixpoint leaf_ok (e : xe) : bool :=
  match e with
  | XPar e | XPlus e | XCast e => leaf_ok e
  | XBin op _ _ => negb (op =? AMP_AMP) && negb (op =? BAR_BAR)
  | _ => true
  end.
Definition ok_hc (h : hc) : bool := forallb okx (hc_a h).
Definition ok_atom (a : atom) : bool :=
  match a with
  | QExpr l e => forallb ok_hc l && okx e && (cse e || noeff e)          (* not: x = 1, y = 2; *)
  | QAsg l x e => forallb ok_hc l && okx (XAsg EQ x e)
  | QCall l d f a => forallb ok_hc l && forallb okx a && match d with Some x => ShCSem.okl x | None => true end
  | QPutc l e => forallb ok_hc l && okx e && noeff e                       (* not: putchar(x = x + 1) *)
  | QExit l e => forallb ok_hc l && okx e
  | QRet _ _ | QRetCall _ _ _ | QRet0 => false
  end.
Definition ok_ret (a : atom) : bool :=
  match a with
  | QRet l e => forallb ok_hc l && okx e && negb (commalike e)             (* not: return (a, b); *)
  | QRetCall l f a => forallb ok_hc l && forallb okx a
  | QRet0 => true
  | _ => false
  end.
Fixpoint ok_cond (t : cond) : bool :=
  match t with
  | CLeaf l e => forallb ok_hc l && okx e && leaf_ok e
  | CLog _ a b => ok_cond a && ok_cond b
  end.
Definition ok_sval (v : sval) : bool := forallb ok_hc (fst v) && okx (snd v).
(* all the simple statements, returns, conditions and switch values of a statement *)
Section Every.
Variables (A T V P : Type) (pa pr : A -> bool) (pt : T -> bool) (pv : V -> bool).
Definition opt {X} (p : X -> bool) (o : option X) : bool := match o with Some x => p x | None => true end.
Fixpoint every (c : stmt A T V P) : bool :=
  match c with
  | SEmpty | SBreak | SContinue => true
  | SAtom a => pa a
  | SIf t a b => pt t && every a && every b
  | SWhile t b | SDo b t => pt t && every b
  | SFor i t e b => opt pa i && opt pt t && opt pa e && every b
  | SSwitch v l => pv v && everys l
  | SReturn a => pr a
  | SBlock l => everys l
  | SLabel c => every c
  end
with everys (l : stmts A T V P) : bool :=
  match l with Snil => true | Scons _ c r => every c && everys r end.
End Every.
Definition ok_stmts : stmts atom cond sval pc -> bool := everys atom cond sval pc ok_atom ok_ret ok_cond ok_sval.
Definition ok_fun (d : fdef) : Prop :=
  NoDup (fparams d ++ flocals d) /\ ok_stmts (fbody d) = true /\ ShStmt.okl atom cond sval pc (fbody d) = true.

(** ** The shell and the names *)
(* A shell whose arithmetic has N bits and whose expansions are those of POSIX (C19).  The names of the
   constants are readonly variables; the names of the C variables, the memory words and the variables
   of the runtime library are not.  No C variable has a name of the runtime library (C26). *)
Record setting (N : Z) (sev : list item -> vars -> option (list Z * vars)) (ro : name -> option Z)
    (vn mn zn : nat -> name) (moff zsz : nat -> Z) : Prop := {
  st_bits : 32 <= N;
  st_names : names_ok vn mn zn moff zsz;
  st_shell : forall t g l g1, exp N t g l g1 -> sev t g = Some (l, g1);
  st_ro : forall n v, cn mn zn moff zsz n v -> ro n = Some v;
  st_rw : forall n, (exists l, n = nm vn l) \/ In n [SP; TMP; CODE; none_name] \/ (exists k, n = stk k) -> ro n = None;
  st_own : forall x, ~ In (vn x) [SP; TMP; CODE; none_name] /\ forall k, vn x <> stk k }.
