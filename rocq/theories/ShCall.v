(** * Function calls inside expressions (sh.c)

    Model of handle_side_effects_go and handle_fun_call_side_effect (sh.c:895-1058), of comp_rvalue
    (sh.c:1387-1428), of the test part of comp_rvalue_go with with_prefixed_side_effects,
    wrap_in_condition_if_needed and wrap_if_needed (sh.c:1141-1385), and of the place of the calls in
    comp_fun_call_code / fun_call_params (sh.c:1500-1517, 1727-1777).

    Function calls cannot occur in shell arithmetic: they are taken out of the expression, their
    results go to temporaries __t1, __t2, ..., and what is left is evaluated by the shell.

    Simplifications: the meaning of the variables, the operators and the functions is a parameter, so
    one constructor stands for all leaves ([ELf]), one for all unary operators, increments included
    ([EUn]), one for all binary operators, indexing, member access and compound assignments included
    ([EBn]); an assignment to a simple variable is [EAs], an assignment to any other lvalue is an
    [EBn] here and is not modelled when its right side is directly a call; sizeof is a leaf; string
    literals are not modelled.  The text of what is left after the calls are taken out is the subject
    of C19; here it is the tree [rx], evaluated from left to right. *)
From Coq Require Import ZArith List Lia Bool.
Import ListNotations.

(* L leaves, X variables, U unary operators, O binary operators, R comparisons, Fn functions *)
Inductive ex (L X U O R Fn : Type) :=
| EVl (v : Z)                                   (* an integer; also: a computed value *)
| ELf (l : L)
| EVr (x : X)
| EUn (u : U) (a : ex L X U O R Fn)
| EBn (o : O) (a b : ex L X U O R Fn)
| ECp (r : R) (a b : ex L X U O R Fn)                    (* == != < > <= >= *)
| ECm (a b : ex L X U O R Fn)                            (* , *)
| EAs (x : X) (a : ex L X U O R Fn)                      (* x = a *)
| ELg (isand : bool) (a b : ex L X U O R Fn)             (* && (true) and || (false) *)
| ECd (c a b : ex L X U O R Fn)                          (* ? : *)
| ECa (a : ex L X U O R Fn)                              (* a cast to int *)
| EPl (a : ex L X U O R Fn)                              (* unary + *)
| EPa (a : ex L X U O R Fn)                              (* parentheses *)
| ECl (f : Fn) (l : exs L X U O R Fn)                    (* a call *)
with exs (L X U O R Fn : Type) := Enil | Econs (a : ex L X U O R Fn) (l : exs L X U O R Fn).
Arguments EVl {L X U O R Fn}. Arguments ELf {L X U O R Fn}. Arguments EVr {L X U O R Fn}. Arguments EUn {L X U O R Fn}.
Arguments EBn {L X U O R Fn}. Arguments ECp {L X U O R Fn}. Arguments ECm {L X U O R Fn}. Arguments EAs {L X U O R Fn}.
Arguments ELg {L X U O R Fn}. Arguments ECd {L X U O R Fn}. Arguments ECa {L X U O R Fn}. Arguments EPl {L X U O R Fn}.
Arguments EPa {L X U O R Fn}. Arguments ECl {L X U O R Fn}. Arguments Enil {L X U O R Fn}. Arguments Econs {L X U O R Fn}.
Scheme ex_ind2 := Induction for ex Sort Prop with exs_ind2 := Induction for exs Sort Prop.
Combined Scheme ex_exs_ind from ex_ind2, exs_ind2.

(* where a call puts its result: a temporary, or the variable assigned *)
Inductive tgt (X : Type) := TTm (k : nat) | TVr (x : X).
Arguments TTm {X}. Arguments TVr {X}.

(* what is left of an expression: no calls, temporaries [RTm], the variable that a call was assigned
   to [RRv]; && and || carry the calls of their two sides (new_ast4, sh.c:1021) *)
Inductive rx (L X U O R Fn : Type) :=
| RVl (v : Z) | RLf (l : L) | RVr (x : X) | RRv (x : X) | RTm (k : nat)
| RUn (u : U) (a : rx L X U O R Fn)
| RBn (o : O) (a b : rx L X U O R Fn)
| RCp (r : R) (a b : rx L X U O R Fn)
| RCm (a b : rx L X U O R Fn)
| RAs (x : X) (a : rx L X U O R Fn)
| RLg (isand : bool) (a b : rx L X U O R Fn) (la lb : cls L X U O R Fn)
| RCd (c a b : rx L X U O R Fn)
| RCa (a : rx L X U O R Fn) | RPl (a : rx L X U O R Fn) | RPa (a : rx L X U O R Fn)
with rxs (L X U O R Fn : Type) := Rnil | Rcons (a : rx L X U O R Fn) (l : rxs L X U O R Fn)
with cls (L X U O R Fn : Type) := Cnil | Ccons (t : tgt X) (f : Fn) (a : rxs L X U O R Fn) (l : cls L X U O R Fn).
Arguments RVl {L X U O R Fn}. Arguments RLf {L X U O R Fn}. Arguments RVr {L X U O R Fn}. Arguments RRv {L X U O R Fn}.
Arguments RTm {L X U O R Fn}. Arguments RUn {L X U O R Fn}. Arguments RBn {L X U O R Fn}. Arguments RCp {L X U O R Fn}.
Arguments RCm {L X U O R Fn}. Arguments RAs {L X U O R Fn}. Arguments RLg {L X U O R Fn}. Arguments RCd {L X U O R Fn}.
Arguments RCa {L X U O R Fn}. Arguments RPl {L X U O R Fn}. Arguments RPa {L X U O R Fn}. Arguments Rnil {L X U O R Fn}.
Arguments Rcons {L X U O R Fn}. Arguments Cnil {L X U O R Fn}. Arguments Ccons {L X U O R Fn}.

(* the tokens of a shell condition: a simple command is a call or a test *)
Inductive simple (L X U O R Fn : Type) := SCall (t : tgt X) (f : Fn) (a : rxs L X U O R Fn) | STest (r : rx L X U O R Fn).
Arguments SCall {L X U O R Fn}. Arguments STest {L X U O R Fn}.
Inductive tok (L X U O R Fn : Type) := KSimple (s : simple L X U O R Fn) | KSemi | KLog (isand : bool) | KOpen | KClose.
Arguments KSimple {L X U O R Fn}. Arguments KSemi {L X U O R Fn}. Arguments KLog {L X U O R Fn}. Arguments KOpen {L X U O R Fn}.
Arguments KClose {L X U O R Fn}.

Section Comp.
Variables L X U O R Fn : Type.
Notation ex := (ex L X U O R Fn).
Notation exs := (exs L X U O R Fn).
Notation rx := (rx L X U O R Fn).
Notation rxs := (rxs L X U O R Fn).
Notation cls := (cls L X U O R Fn).
Notation tok := (tok L X U O R Fn).

Fixpoint snoc (l : cls) (t : tgt X) (f : Fn) (a : rxs) : cls :=
  match l with Cnil => Ccons t f a Cnil | Ccons t0 f0 a0 r => Ccons t0 f0 a0 (snoc r t f a) end.
Fixpoint capp (l m : cls) : cls := match l with Cnil => m | Ccons t f a r => Ccons t f a (capp r m) end.
(* gensym_ix, replaced_fun_calls, conditional_fun_calls *)
Record gst := G { gix : nat; repl : cls; cond : cls }.
Definition push (flag : bool) (t : tgt X) (f : Fn) (a : rxs) (g : gst) : gst :=       (* sh.c:927-937 *)
  if flag then G (gix g) (repl g) (snoc (cond g) t f a) else G (gix g) (snoc (repl g) t f a) (cond g).
Definition setg (n : nat) (g : gst) : gst := G n (repl g) (cond g).
Definition setc (c : cls) (g : gst) : gst := G (gix g) (repl g) c.

(* handle_side_effects_go; [flag] = executes_conditionally; None: a fatal error.  sh.c:948-1049 *)
Fixpoint handle (e : ex) (flag : bool) (g : gst) {struct e} : option (rx * gst) :=
  match e with
  | EVl v => Some (RVl v, g)
  | ELf l => Some (RLf l, g)
  | EVr x => Some (RVr x, g)
  | EUn u a => match handle a flag g with Some (r, g1) => Some (RUn u r, g1) | None => None end
  | EPl a => match handle a flag g with Some (r, g1) => Some (RPl r, g1) | None => None end
  | EPa a => match handle a flag g with Some (r, g1) => Some (RPa r, g1) | None => None end
  | ECa a => match handle a flag g with Some (r, g1) => Some (RCa r, g1) | None => None end
  | EBn o a b => match handle a flag g with
                 | Some (ra, g1) => match handle b flag g1 with Some (rb, g2) => Some (RBn o ra rb, g2) | None => None end
                 | None => None end
  | ECp o a b => match handle a flag g with
                 | Some (ra, g1) => match handle b flag g1 with Some (rb, g2) => Some (RCp o ra rb, g2) | None => None end
                 | None => None end
  | ECm a b => match handle a flag g with
                 | Some (ra, g1) => match handle b flag g1 with Some (rb, g2) => Some (RCm ra rb, g2) | None => None end
                 | None => None end
  | EAs x (ECl f l) =>                     (* the variable receives the result: handle_fun_call_side_effect(child1, child0) *)
      match handles l flag g with
      | Some (rs, g1) => Some (RRv x, push flag (TVr x) f rs (setg (gix g) g1))
      | None => None
      end
  | EAs x a => match handle a flag g with Some (r, g1) => Some (RAs x r, g1) | None => None end
  | ELg o a b =>                                                             (* sh.c:1008-1022 *)
      match handle a true (setc Cnil g) with
      | None => None
      | Some (ra, g1) =>
          match handle b true (setc Cnil (setg (gix g) g1)) with
          | None => None
          | Some (rb, g2) => Some (RLg o ra rb (cond g1) (cond g2), setc (cond g) (setg (gix g) g2))
          end
      end
  | ECd c a b =>                                                             (* sh.c:1029-1041; cond is not restored *)
      match handle a true (setc Cnil g) with
      | None => None
      | Some (ra, g1) =>
          match handle b true (setc Cnil g1) with
          | None => None
          | Some (rb, g2) =>
              match cond g1, cond g2 with
              | Cnil, Cnil => match handle c flag g2 with Some (rc, g3) => Some (RCd rc ra rb, g3) | None => None end
              | _, _ => None
              end
          end
      end
  | ECl f l =>                                                               (* handle_fun_call_side_effect, sh.c:902-942 *)
      match handles l flag g with
      | Some (rs, g1) => Some (RTm (S (gix g)), push flag (TTm (S (gix g))) f rs (setg (S (gix g)) g1))
      | None => None
      end
  end
with handles (l : exs) (flag : bool) (g : gst) {struct l} : option (rxs * gst) :=
  match l with
  | Enil => Some (Rnil, g)
  | Econs a l => match handle a flag g with
                 | Some (r, g1) => match handles l flag g1 with Some (rs, g2) => Some (Rcons r rs, g2) | None => None end
                 | None => None end
  end.

(* comp_rvalue_go outside tests rejects && and || that carry calls, sh.c:1370-1373 *)
Fixpoint arith_ok (r : rx) : bool :=
  match r with
  | RUn _ a | RAs _ a | RCa a | RPl a | RPa a => arith_ok a
  | RBn _ a b | RCp _ a b | RCm a b => arith_ok a && arith_ok b
  | RLg _ a b Cnil Cnil => arith_ok a && arith_ok b
  | RLg _ _ _ _ _ => false
  | RCd c a b => arith_ok c && arith_ok a && arith_ok b
  | _ => true
  end.
(* the arguments of a call that was taken out are traversed a second time (fun_call_params calls
   comp_rvalue), which rejects the 4-child nodes of && and ||, sh.c:1043 *)
Fixpoint nolog (r : rx) : bool :=
  match r with
  | RUn _ a | RAs _ a | RCa a | RPl a | RPa a => nolog a
  | RBn _ a b | RCp _ a b | RCm a b => nolog a && nolog b
  | RLg _ _ _ _ _ => false
  | RCd c a b => nolog c && nolog a && nolog b
  | _ => true
  end.
Fixpoint args_ok (l : rxs) : bool := match l with Rnil => true | Rcons a l => nolog a && args_ok l end.
Fixpoint calls_ok (l : cls) : bool := match l with Cnil => true | Ccons _ _ a l => args_ok a && calls_ok l end.

(* with_prefixed_side_effects, sh.c:1141-1158; the calls, each followed by ";" *)
Fixpoint calltoks (l : cls) : list tok :=
  match l with Cnil => [] | Ccons t f a r => KSimple (SCall t f a) :: KSemi :: calltoks r end.
Definition prefixed (l : cls) (code : list tok) : list tok :=
  match l with Cnil => code | _ => KOpen :: calltoks l ++ code ++ [KSemi; KClose] end.
(* non_parenthesized_operand, pnut.c:1275 *)
Fixpoint strip (r : rx) : rx := match r with RPa a => strip a | _ => r end.
Definition braces (o : bool) (r : rx) (code : list tok) : list tok :=           (* sh.c:1350-1366 *)
  match strip r with
  | RLg o' _ _ _ _ => if Bool.eqb o o' then code else KOpen :: code ++ [KSemi; KClose]
  | _ => code
  end.
(* comp_rvalue_go in a test, [tse] = test_side_effects.  sh.c:1204-1385 *)
Fixpoint test (r : rx) (tse : cls) : option (list tok) :=
  match r with
  | RPa a | RPl a => test a tse
  | RCa a => test a Cnil                                                        (* sh.c:1327 *)
  | RLg o a b la lb =>
      match test a la, test b lb with
      | Some ta, Some tb => Some (braces o a ta ++ KLog o :: braces o b tb)
      | _, _ => None
      end
  | _ => if arith_ok r && calls_ok tse then Some (prefixed tse [KSimple (STest r)]) else None
  end.
(* comp_rvalue: in a test, and elsewhere (the calls, then what is left) *)
Definition comp_test (e : ex) (g : nat) : option (list tok) :=
  match handle e false (G g Cnil Cnil) with
  | Some (r, g1) => if calls_ok (repl g1) then
                      match test r Cnil with Some t => Some (calltoks (repl g1) ++ t) | None => None end
                    else None
  | None => None
  end.
Definition comp_value (e : ex) (g : nat) : option (cls * rx) :=
  match handle e false (G g Cnil Cnil) with
  | Some (r, g1) => if calls_ok (repl g1) && arith_ok r then Some (repl g1, r) else None
  | None => None
  end.
End Comp.

(** ** The shell: grammar of lists and their meaning (POSIX 2.9.3) *)
Inductive elem (L X U O R Fn : Type) := ESimple (s : simple L X U O R Fn) | EGroup (c : clist L X U O R Fn)
with andor (L X U O R Fn : Type) := AOne (e : elem L X U O R Fn) | ALog (a : andor L X U O R Fn) (isand : bool) (e : elem L X U O R Fn)
with clist (L X U O R Fn : Type) := LOne (a : andor L X U O R Fn) | LSeq (c : clist L X U O R Fn) (a : andor L X U O R Fn).
Arguments ESimple {L X U O R Fn}. Arguments EGroup {L X U O R Fn}. Arguments AOne {L X U O R Fn}. Arguments ALog {L X U O R Fn}.
Arguments LOne {L X U O R Fn}. Arguments LSeq {L X U O R Fn}.

Section Shell.
Variables L X U O R Fn St : Type.
Notation rx := (rx L X U O R Fn).
Notation rxs := (rxs L X U O R Fn).
Notation tok := (tok L X U O R Fn).
Notation elem := (elem L X U O R Fn).
Notation andor := (andor L X U O R Fn).
Notation clist := (clist L X U O R Fn).

(* && and || have the same precedence and group to the left *)
Inductive gelem : list tok -> elem -> Prop :=
| G_simple s : gelem [KSimple s] (ESimple s)
| G_group t c : gclist t c -> gelem (KOpen :: t ++ [KSemi; KClose]) (EGroup c)
with gandor : list tok -> andor -> Prop :=
| G_one t e : gelem t e -> gandor t (AOne e)
| G_log t a o u e : gandor t a -> gelem u e -> gandor (t ++ KLog o :: u) (ALog a o e)
with gclist : list tok -> clist -> Prop :=
| G_last t a : gandor t a -> gclist t (LOne a)
| G_seq t c u a : gclist t c -> gandor u a -> gclist (t ++ KSemi :: u) (LSeq c a).
Scheme gelem_ind2 := Induction for gelem Sort Prop
with gandor_ind2 := Induction for gandor Sort Prop
with gclist_ind2 := Induction for gclist Sort Prop.
Combined Scheme gr_ind from gelem_ind2, gandor_ind2, gclist_ind2.

Variable rd : L -> St -> Z.                           (* a leaf *)
Variable rdv : X -> St -> Z.                          (* a variable *)
Variable setx : X -> Z -> St -> St.
Variable un : U -> Z -> St -> Z * St.                 (* a unary operator, perhaps with an effect *)
Variable bn : O -> Z -> Z -> St -> Z * St.
Variable cmp : R -> Z -> Z -> bool.
Variable call : Fn -> list Z -> St -> Z -> St -> Prop.   (* a call: arguments, result *)

Definition b2z (b : bool) : Z := if b then 1%Z else 0%Z.
Definition nz (v : Z) : bool := negb (Z.eqb v 0).
Definition temps := nat -> Z.
Definition sett (k : nat) (v : Z) (t : temps) : temps := fun j => if Nat.eqb j k then v else t j.

(* arithmetic expansion of what is left, from left to right *)
Fixpoint reval (r : rx) (t : temps) (s : St) {struct r} : Z * St :=
  match r with
  | RVl v => (v, s)
  | RLf l => (rd l s, s)
  | RVr x | RRv x => (rdv x s, s)
  | RTm k => (t k, s)
  | RUn u a => let (v, s1) := reval a t s in un u v s1
  | RBn o a b => let (v, s1) := reval a t s in let (w, s2) := reval b t s1 in bn o v w s2
  | RCp o a b => let (v, s1) := reval a t s in let (w, s2) := reval b t s1 in (b2z (cmp o v w), s2)
  | RCm a b => let (_, s1) := reval a t s in reval b t s1
  | RAs x a => let (v, s1) := reval a t s in (v, setx x v s1)
  | RLg o a b _ _ => let (v, s1) := reval a t s in
      if Bool.eqb (nz v) o then let (w, s2) := reval b t s1 in (b2z (nz w), s2) else (b2z (nz v), s1)
  | RCd c a b => let (v, s1) := reval c t s in if nz v then reval a t s1 else reval b t s1
  | RCa a | RPl a | RPa a => reval a t s
  end.
Fixpoint revals (l : rxs) (t : temps) (s : St) : list Z * St :=
  match l with
  | Rnil => ([], s)
  | Rcons a l => let (v, s1) := reval a t s in let (vs, s2) := revals l t s1 in (v :: vs, s2)
  end.
Inductive rsimple : simple L X U O R Fn -> temps * St -> bool -> temps * St -> Prop :=
| R_calltm k f a t s vs s1 v s2 b : revals a t s = (vs, s1) -> call f vs s1 v s2 ->
    rsimple (SCall (TTm k) f a) (t, s) b (sett k v t, s2)               (* the exit status of a call is arbitrary *)
| R_callvr x f a t s vs s1 v s2 b : revals a t s = (vs, s1) -> call f vs s1 v s2 ->
    rsimple (SCall (TVr x) f a) (t, s) b (t, setx x v s2)
| R_test r t s v s1 : reval r t s = (v, s1) -> rsimple (STest r) (t, s) (nz v) (t, s1).
Inductive relem : elem -> temps * St -> bool -> temps * St -> Prop :=
| R_simple x p b q : rsimple x p b q -> relem (ESimple x) p b q
| R_group c p b q : rclist c p b q -> relem (EGroup c) p b q
with randor : andor -> temps * St -> bool -> temps * St -> Prop :=
| R_one e p b q : relem e p b q -> randor (AOne e) p b q
| R_run a o e p q b q1 : randor a p o q -> relem e q b q1 -> randor (ALog a o e) p b q1     (* && after true, || after false *)
| R_skip a o e p q : randor a p (negb o) q -> randor (ALog a o e) p (negb o) q
with rclist : clist -> temps * St -> bool -> temps * St -> Prop :=
| R_last a p b q : randor a p b q -> rclist (LOne a) p b q
| R_seq c a p b0 q b q1 : rclist c p b0 q -> randor a q b q1 -> rclist (LSeq c a) p b q1.
Scheme relem_ind2 := Induction for relem Sort Prop
with randor_ind2 := Induction for randor Sort Prop
with rclist_ind2 := Induction for rclist Sort Prop.
Combined Scheme rr_ind from relem_ind2, randor_ind2, rclist_ind2.
(* calls one after the other *)
Inductive rcalls : cls L X U O R Fn -> temps * St -> temps * St -> Prop :=
| R_cnil p : rcalls Cnil p p
| R_ccons t f a l p b q r : rsimple (SCall t f a) p b q -> rcalls l q r -> rcalls (Ccons t f a l) p r.

(** ** C: the operands of an operator may be evaluated in any interleaving; && || ?: and the comma
    are sequenced (ISO C 6.5) *)
Notation ex := (ex L X U O R Fn).
Notation exs := (exs L X U O R Fn).
Fixpoint values (l : exs) : option (list Z) :=
  match l with
  | Enil => Some []
  | Econs (EVl v) l => match values l with Some vs => Some (v :: vs) | None => None end
  | Econs _ _ => None
  end.
Inductive step : ex -> St -> ex -> St -> Prop :=
| S_lf l s : step (ELf l) s (EVl (rd l s)) s
| S_vr x s : step (EVr x) s (EVl (rdv x s)) s
| S_un u v s v' s' : un u v s = (v', s') -> step (EUn u (EVl v)) s (EVl v') s'
| S_bn o v w s v' s' : bn o v w s = (v', s') -> step (EBn o (EVl v) (EVl w)) s (EVl v') s'
| S_cp o v w s : step (ECp o (EVl v) (EVl w)) s (EVl (b2z (cmp o v w))) s
| S_cm v b s : step (ECm (EVl v) b) s b s
| S_as x v s : step (EAs x (EVl v)) s (EVl v) (setx x v s)
| S_lg_go o v b s : nz v = o -> step (ELg o (EVl v) b) s (ECd b (EVl 1) (EVl 0)) s   (* the value of b, as 0 or 1 *)
| S_lg_stop o v b s : nz v = negb o -> step (ELg o (EVl v) b) s (EVl (b2z (negb o))) s
| S_cd v a b s : step (ECd (EVl v) a b) s (if nz v then a else b) s
| S_ca v s : step (ECa (EVl v)) s (EVl v) s
| S_pl v s : step (EPl (EVl v)) s (EVl v) s
| S_pa v s : step (EPa (EVl v)) s (EVl v) s
| S_cl f l vs s v s' : values l = Some vs -> call f vs s v s' -> step (ECl f l) s (EVl v) s'
| S_un1 u a s a' s' : step a s a' s' -> step (EUn u a) s (EUn u a') s'
| S_bn1 o a b s a' s' : step a s a' s' -> step (EBn o a b) s (EBn o a' b) s'
| S_bn2 o a b s b' s' : step b s b' s' -> step (EBn o a b) s (EBn o a b') s'
| S_cp1 o a b s a' s' : step a s a' s' -> step (ECp o a b) s (ECp o a' b) s'
| S_cp2 o a b s b' s' : step b s b' s' -> step (ECp o a b) s (ECp o a b') s'
| S_cm1 a b s a' s' : step a s a' s' -> step (ECm a b) s (ECm a' b) s'
| S_as1 x a s a' s' : step a s a' s' -> step (EAs x a) s (EAs x a') s'
| S_lg1 o a b s a' s' : step a s a' s' -> step (ELg o a b) s (ELg o a' b) s'
| S_cd1 c a b s c' s' : step c s c' s' -> step (ECd c a b) s (ECd c' a b) s'
| S_ca1 a s a' s' : step a s a' s' -> step (ECa a) s (ECa a') s'
| S_pl1 a s a' s' : step a s a' s' -> step (EPl a) s (EPl a') s'
| S_pa1 a s a' s' : step a s a' s' -> step (EPa a) s (EPa a') s'
| S_cl1 f l s l' s' : steps1 l s l' s' -> step (ECl f l) s (ECl f l') s'
with steps1 : exs -> St -> exs -> St -> Prop :=
| S_here a l s a' s' : step a s a' s' -> steps1 (Econs a l) s (Econs a' l) s'
| S_there a l s l' s' : steps1 l s l' s' -> steps1 (Econs a l) s (Econs a l') s'.
Inductive star : ex -> St -> ex -> St -> Prop :=
| S_refl e s : star e s e s
| S_more e s e1 s1 e2 s2 : step e s e1 s1 -> star e1 s1 e2 s2 -> star e s e2 s2.
End Shell.

(** ** The expressions for which the code is right *)
Section Ok.
Variables L X U O R Fn : Type.
Variable upure : U -> bool.       (* operators without effect *)
Variable opure : O -> bool.
Notation ex := (ex L X U O R Fn).
Notation exs := (exs L X U O R Fn).

(* contains a call, outside the operands of && and || *)
Fixpoint calls (e : ex) : bool :=
  match e with
  | EUn _ a | EAs _ a | ECa a | EPl a | EPa a => calls a
  | EBn _ a b | ECp _ a b | ECm a b => calls a || calls b
  | ECd c a b => calls c || calls a || calls b
  | ECl _ _ => true
  | _ => false
  end.
Fixpoint callss (l : exs) : bool := match l with Enil => false | Econs a l => calls a || callss l end.
(* contains an effect outside calls *)
Fixpoint effs (e : ex) : bool :=
  match e with
  | EUn u a => negb (upure u) || effs a
  | EAs _ (ECl _ _) => false
  | EAs _ _ => true
  | ECa a | EPl a | EPa a => effs a
  | EBn o a b => negb (opure o) || effs a || effs b
  | ECp _ a b | ECm a b | ELg _ a b => effs a || effs b
  | ECd c a b => effs c || effs a || effs b
  | _ => false
  end.
Fixpoint effss (l : exs) : bool := match l with Enil => false | Econs a l => effs a || effss l end.
(* contains x = f(...) outside calls *)
Fixpoint asgs (e : ex) : bool :=
  match e with
  | EAs _ (ECl _ _) => true
  | EUn _ a | EAs _ a | ECa a | EPl a | EPa a => asgs a
  | EBn _ a b | ECp _ a b | ECm a b | ELg _ a b => asgs a || asgs b
  | ECd c a b => asgs c || asgs a || asgs b
  | _ => false
  end.
Fixpoint asgss (l : exs) : bool := match l with Enil => false | Econs a l => asgs a || asgss l end.
(* contains ?: outside the operands of && and || *)
Fixpoint conds (e : ex) : bool :=
  match e with
  | EUn _ a | EAs _ a | ECa a | EPl a | EPa a => conds a
  | EBn _ a b | ECp _ a b | ECm a b => conds a || conds b
  | ECd _ _ _ => true
  | ECl _ l => condss l
  | _ => false
  end
with condss (l : exs) : bool := match l with Enil => false | Econs a l => conds a || condss l end.

(* [value c e], where c: "e is in an operand of && or ||":
   - after x = f(...) there is no other call, and nothing else in the expression has an effect;
   - in (a, b), a has no effect outside calls if b has a call;
   - in an operand of && or ||, no call comes before a ?: *)
Definition two (c : bool) (a b : ex) : bool :=
  negb (asgs a && calls b) && negb (c && calls a && conds b).
Fixpoint value (c : bool) (e : ex) : bool :=
  match e with
  | EUn _ a | EAs _ a | ECa a | EPl a | EPa a => value c a
  | EBn _ a b | ECp _ a b => value c a && value c b && two c a b
  | ECm a b => value c a && value c b && two c a b && negb (effs a && calls b)
  | ELg _ a b => value true a && value true b
  | ECd d a b => value c d && value true a && value true b
  | ECl _ l => valuel c l && negb (asgss l && effss l)
  | _ => true
  end
with valuel (c : bool) (l : exs) : bool :=
  match l with
  | Enil => true
  | Econs a l => value c a && valuel c l && negb (asgs a && callss l) && negb (c && calls a && condss l)
  end.
Definition value_ok (e : ex) : bool := value false e && negb (asgs e && effs e).
(* a cast or a unary plus around && or || *)
Fixpoint spine (e : ex) : ex := match e with EPa a => spine a | _ => e end.
Fixpoint deep (e : ex) : bool := match e with EPa a | EPl a | ECa a => deep a | ELg _ _ _ => true | _ => false end.
Fixpoint castcall (e : ex) : bool := match e with EPa a | EPl a => castcall a | ECa a => calls a | _ => false end.
(* [test_ok c e]: an operand of && or || (c), or a whole condition *)
Fixpoint test_ok (c : bool) (e : ex) : bool :=
  match e with
  | EPa a => test_ok c a
  | EPl a | ECa a => test_ok c a && negb (c && deep a) && negb (c && castcall e)
  | ELg _ a b => test_ok true a && test_ok true b
  | _ => value c e && negb (asgs e && effs e)
  end.
End Ok.
