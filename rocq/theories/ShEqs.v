(** * Unfolding equations of the mutually recursive functions of ShExpr and ShCSem *)
From Coq Require Import ZArith List Lia Bool.
From Verif Require Import Base Ast Parse ShArith ShExpr ShCSem.
Import ListNotations.
Open Scope Z_scope.
Section Eqs.
Variables (vn mn zn : nat -> name) (moff zsz : nat -> Z).
Notation cev := (ShCSem.cev moff zsz).
Notation clv := (ShCSem.clv moff zsz).
Notation hst := (ShCSem.hst moff zsz).
Notation hlv := (ShCSem.hlv moff zsz).
Notation had := (ShCSem.had moff zsz).
Notation hz := (ShCSem.hz moff zsz).
Notation zlv := (ShCSem.zlv moff zsz).
Notation zad := (ShCSem.zad moff zsz).
Notation comp_rvalue_go := (ShExpr.comp_rvalue_go vn mn zn).
Notation comp_lvalue := (ShExpr.comp_lvalue vn mn zn).
Notation comp_lvalue_address := (ShExpr.comp_lvalue_address vn mn zn).
Lemma comp_rvalue_go_eq (e : xe) (arith : bool) (outer_op : Z) : comp_rvalue_go e arith outer_op =
  match e with
  | XInt n => wrap_int n
  | XHex n => wrap_if_needed false arith (wrap_hex n) outer_op INTEGER_HEX
  | XOct n => wrap_if_needed false arith (wrap_oct n) outer_op INTEGER_OCT
  | XChr c => if arith then chs (character_ident c) else [Pv (character_ident c)]
  | XVar x => if arith then chs (vn x) else [Pv (vn x)]
  | XDeref e => wrap_if_needed false arith (chs [95] ++ comp_rvalue_go e false STAR) outer_op STAR
  | XPlus e => comp_rvalue_go e arith outer_op
  | XPar e => comp_rvalue_go e arith outer_op
  | XUn op e =>
      match e with
      | XInt n => wrap_int (- n)
      | _ => wrap_if_needed false arith (chs [op] ++ comp_rvalue_go e true op) outer_op op
      end
  | XPre inc e =>
      wrap_if_needed true arith (comp_lvalue e ++ chs (if inc then [32; 43; 61; 32; 49] else [32; 45; 61; 32; 49]))
        outer_op (if inc then PLUS_PLUS_PRE else MINUS_MINUS_PRE)
  | XPost inc e =>
      wrap_if_needed false arith
        (chs [40] ++ comp_lvalue e ++
         chs (if inc then [32; 43; 61; 32; 49; 41; 32; 45; 32; 49] else [32; 45; 61; 32; 49; 41; 32; 43; 32; 49]))
        outer_op (if inc then MINUS else PLUS)
  | XSize1 => wrap_int 1
  | XSizeS k => wrap_if_needed false arith (chs (zn k)) outer_op SIZEOF_KW
  | XAddr e => wrap_if_needed false arith (comp_lvalue_address e) outer_op AMP
  | XBin op a b =>
      wrap_if_needed true arith (comp_rvalue_go a true op ++ op_to_str op ++ comp_rvalue_go b true op) outer_op op
  | XComma a b =>
      wrap_if_needed true arith (comp_rvalue_go a true COMMA ++ op_to_str COMMA ++ comp_rvalue_go b true COMMA) outer_op COMMA
  | XAsg op a b =>
      wrap_if_needed true arith (comp_lvalue a ++ op_to_str op ++ comp_rvalue_go b true op) outer_op op
  | XIdx a b =>
      wrap_if_needed false arith
        (chs [95] ++ [Ar (comp_rvalue_go a true PLUS ++ chs [32; 43; 32] ++ comp_rvalue_go b true PLUS)]) outer_op LBRACK
  | XMem a k =>
      wrap_if_needed false arith
        (chs [95] ++ [Ar (comp_rvalue_go a true ARROW ++ chs [32; 43; 32] ++ chs (mn k))]) outer_op ARROW
  | XCast e => comp_rvalue_go e arith CAST
  | XCond c a b =>
      wrap_if_needed true arith
        (comp_rvalue_go c true QUEST ++ op_to_str QUEST ++ comp_rvalue_go a true QUEST ++ chs [58; 32]
         ++ comp_rvalue_go b true QUEST) outer_op QUEST
  end.
Proof. destruct e; reflexivity. Qed.
Lemma comp_lvalue_eq (e : xe) : comp_lvalue e =
  match e with
  | XVar x => chs (vn x)
  | XIdx a b => chs [95] ++ [Ar (comp_rvalue_go a true 0 ++ chs [32; 43; 32] ++ comp_rvalue_go b true 0)]
  | XDeref e => chs [95] ++ comp_rvalue_go e false 0
  | XMem a k => chs [95] ++ [Ar (comp_rvalue_go a true 0 ++ chs [32; 43; 32] ++ chs (mn k))]
  | XCast e => comp_lvalue e
  | XPar e => comp_lvalue_address e
  | _ => []
  end.
Proof. destruct e; reflexivity. Qed.
Lemma comp_lvalue_address_eq (e : xe) : comp_lvalue_address e =
  match e with
  | XIdx a b => comp_rvalue_go a true 0 ++ chs [32; 43; 32] ++ comp_rvalue_go b true 0
  | XDeref e => comp_rvalue_go e false 0
  | XMem a k => comp_rvalue_go a true 0 ++ chs [32; 43; 32] ++ chs (mn k)
  | XCast e => comp_lvalue_address e
  | XPar e => comp_lvalue_address e
  | _ => []
  end.
Proof. destruct e; reflexivity. Qed.
Lemma cev_eq (e : xe) (s : store) : cev e s =
  match e with
  | XInt n | XHex n | XOct n => Some (n, s, [], [])
  | XChr c => Some (c, s, [], [])
  | XVar x => Some (s (LV x), s, [LV x], [])
  | XDeref p => load (at_addr (cev p s))
  | XIdx a b => load (at_addr (cpair (cev a s) (cev b) (carith PLUS)))
  | XMem a k => load (at_addr (cmap (cev a s) (fun v => carith PLUS v (moff k))))
  | XPar e => cev e s
  | XPlus e => cev e s
  | XCast e => cev e s
  | XUn op e => cmap (cev e s) (cunary op)
  | XPre inc e => modify (clv e s) (one inc) false
  | XPost inc e => modify (clv e s) (one inc) true
  | XSize1 => Some (1, s, [], [])
  | XSizeS k => Some (zsz k, s, [], [])
  | XAddr e => match clv e s with Some (LC a, s1, R, W) => Some (a, s1, R, W) | _ => None end
  | XBin op a b =>
      if op =? AMP_AMP then
        cthen (cev a s) (fun v s1 => if v =? 0 then Some (0, s1, [], []) else cmap (cev b s1) truthy)
      else if op =? BAR_BAR then
        cthen (cev a s) (fun v s1 => if v =? 0 then cmap (cev b s1) truthy else Some (1, s1, [], []))
      else cpair (cev a s) (cev b) (carith op)
  | XComma a b => cthen (cev a s) (fun _ s1 => cev b s1)
  | XAsg op a b =>
      match clv a s with
      | Some (l, s1, Ra, Wa) =>
          match cev b s1 with
          | Some (v, s2, Rb, Wb) =>
              if race Ra Wa Rb Wb || mem l (Wa ++ Wb) then None
              else if op =? EQ then Some (v, upd l v s2, Ra ++ Rb, l :: Wa ++ Wb)
              else match asg_op op with
                   | Some o => match carith o (s2 l) v with
                               | Some w => Some (w, upd l w s2, l :: Ra ++ Rb, l :: Wa ++ Wb)
                               | None => None
                               end
                   | None => None
                   end
          | None => None
          end
      | None => None
      end
  | XCond c a b => cthen (cev c s) (fun v s1 => if v =? 0 then cev b s1 else cev a s1)
  end.
Proof. destruct e; reflexivity. Qed.
Lemma clv_eq (e : xe) (s : store) : clv e s =
  match e with
  | XVar x => Some (LV x, s, [], [])
  | XDeref p => at_addr (cev p s)
  | XIdx a b => at_addr (cpair (cev a s) (cev b) (carith PLUS))
  | XMem a k => at_addr (cmap (cev a s) (fun v => carith PLUS v (moff k)))
  | XPar e => clv e s
  | _ => None
  end.
Proof. destruct e; reflexivity. Qed.
Lemma hst_eq (e : xe) (s : store) : hst e s =
  match e with
  | XInt _ | XHex _ | XOct _ | XChr _ | XVar _ | XSize1 | XSizeS _ => Some ([], [])
  | XDeref p => hall (cev p s) (hst p s)
  | XIdx a b =>
      match cev a s with
      | Some (_, sa, Ra, Wa) => hall (cpair (cev a s) (cev b) (carith PLUS)) (hseq Ra Wa (hst a s) (hst b sa))
      | None => None
      end
  | XMem a k => hall (cev a s) (hst a s)
  | XPar e | XPlus e | XCast e | XUn _ e => hst e s
  | XPre _ e | XPost _ e => hlv e s
  | XAddr e => had e s
  | XBin op a b =>
      match cev a s with
      | Some (v, sa, Ra, Wa) =>
          if ((op =? AMP_AMP) && (v =? 0)) || ((op =? BAR_BAR) && negb (v =? 0))
          then hseq Ra Wa (hst a s) (early (hz b sa))
          else hseq Ra Wa (hst a s) (hst b sa)
      | None => None
      end
  | XComma a b =>
      match cev a s with Some (_, sa, Ra, Wa) => hseq Ra Wa (hst a s) (hst b sa) | None => None end
  | XAsg op a b =>
      match clv a s with Some (_, sa, Ra, Wa) => hseq Ra Wa (hlv a s) (hst b sa) | None => None end
  | XCond c a b =>
      match cev c s with
      | Some (v, sc, Rc, Wc) =>
          if v =? 0 then hseq Rc Wc (hseq Rc Wc (hst c s) (early (hz a sc))) (hst b sc)
          else match cev a sc with
               | Some (_, sa, Ra, Wa) =>
                   hseq (Rc ++ Ra) (Wc ++ Wa) (hseq Rc Wc (hst c s) (hst a sc)) (early (hz b sa))
               | None => None
               end
      | None => None
      end
  end.
Proof. destruct e; reflexivity. Qed.
Lemma hlv_eq (e : xe) (s : store) : hlv e s =
  match e with
  | XVar _ => Some ([], [])
  | XDeref p => hall (cev p s) (hst p s)
  | XIdx a b =>
      match cev a s with
      | Some (_, sa, Ra, Wa) => hall (cpair (cev a s) (cev b) (carith PLUS)) (hseq Ra Wa (hst a s) (hst b sa))
      | None => None
      end
  | XMem a k => hall (cev a s) (hst a s)
  | _ => None
  end.
Proof. destruct e; reflexivity. Qed.
Lemma had_eq (e : xe) (s : store) : had e s =
  match e with
  | XIdx a b =>
      match cev a s with Some (_, sa, Ra, Wa) => hseq Ra Wa (hst a s) (hst b sa) | None => None end
  | XMem a k => hst a s
  | XPar e => had e s
  | _ => None
  end.
Proof. destruct e; reflexivity. Qed.
Lemma hz_eq (e : xe) (s : store) : hz e s =
  match e with
  | XInt _ | XHex _ | XOct _ | XChr _ | XVar _ | XSize1 | XSizeS _ => Some []
  | XDeref p => pure (cev p s) (hst p s)
  | XIdx a b =>
      match cev a s with
      | Some (_, sa, Ra, Wa) => pure (cpair (cev a s) (cev b) (carith PLUS)) (hseq Ra Wa (hst a s) (hst b sa))
      | None => None
      end
  | XMem a k => pure (cmap (cev a s) (fun v => carith PLUS v (moff k))) (hst a s)
  | XPar e | XPlus e | XCast e | XUn _ e => hz e s
  | XPre _ e | XPost _ e => zlv e s
  | XAddr e => zad e s
  | XBin _ a b | XComma a b => oapp (hz a s) (hz b s)
  | XAsg _ a b => oapp (zlv a s) (hz b s)
  | XCond c a b => oapp (oapp (hz c s) (hz a s)) (hz b s)
  end.
Proof. destruct e; reflexivity. Qed.
Lemma zlv_eq (e : xe) (s : store) : zlv e s =
  match e with
  | XVar _ => Some []
  | XDeref p => pure (cev p s) (hst p s)
  | XIdx a b =>
      match cev a s with
      | Some (_, sa, Ra, Wa) => pure (cpair (cev a s) (cev b) (carith PLUS)) (hseq Ra Wa (hst a s) (hst b sa))
      | None => None
      end
  | XMem a k => pure (cmap (cev a s) (fun v => carith PLUS v (moff k))) (hst a s)
  | _ => None
  end.
Proof. destruct e; reflexivity. Qed.
Lemma zad_eq (e : xe) (s : store) : zad e s =
  match e with
  | XIdx a b => oapp (hz a s) (hz b s)
  | XMem a k => hz a s
  | XPar e => zad e s
  | _ => None
  end.
Proof. destruct e; reflexivity. Qed.
Lemma okx_eq (e : xe) : okx e =
  match e with
  | XInt n | XHex n | XOct n => (0 <=? n) && (n <? 2 ^ 31)   
  | XVar _ | XSize1 | XSizeS _ => true
  | XChr c => named c
  | XDeref e | XMem e _ | XPar e | XPlus e | XCast e => okx e
  | XIdx a b => okx a && okx b
  | XUn op e =>
      existsb (Z.eqb op) [MINUS; TILDE; EXCL] && okx e
      && negb (postlike e)                              
      && (if op =? MINUS then negb (minus e)            
          else match e with XInt _ => false | _ => true end)   
  | XPre _ e | XPost _ e => okl e
  | XAddr e => oka e
  | XBin op a b =>
      existsb (Z.eqb op) all_binops && okx a && okx b
      && (if existsb (Z.eqb op) (binops 1) then negb (postlike a) && negb (postlike b) else true)  
      && (if op =? MINUS then negb (postlike b) else true)      
      && (if op =? EQ_EQ then negb (eqlike b) else true)        
  | XComma a b => okx a && okx b
  | XAsg op a b =>
      existsb (Z.eqb op) assign_ops && okl a && okx b
      && (if op =? EQ then negb (commalike b) else true)        
  | XCond c a b => okx c && okx a && okx b
  end.
Proof. destruct e; reflexivity. Qed.
Lemma okl_eq (e : xe) : okl e =
  match e with
  | XVar _ => true
  | XDeref e => okx e && nolog e
  | XIdx a b => okx a && okx b && addlike a && addlike b && nolog a && nolog b   
  | XMem e _ => okx e && addlike e && nolog e
  | _ => false                                          
  end.
Proof. destruct e; reflexivity. Qed.
Lemma oka_eq (e : xe) : oka e =
  match e with
  | XIdx a b => okx a && okx b && addlike a && addlike b && nolog a && nolog b
  | XMem e _ => okx e && addlike e && nolog e
  | XPar e => oka e
  | _ => false
  end.
Proof. destruct e; reflexivity. Qed.
End Eqs.
