(** * Statements compiled to shell code (sh.c)

    Model of comp_statement, comp_body, comp_if, comp_loop, comp_switch, make_switch_pattern,
    comp_break, comp_continue, comp_return and the control-flow part of comp_glo_fun_decl
    (sh.c:1811-2290), with cgc_add_enclosing_loop/switch, cgc_lookup_enclosing_loop,
    cgc_lookup_enclosing_loop_or_switch and cgc_loop_depth (env.c:70-160).

    The model is about control flow.  What the simple statements, the tests, the switch values and
    the case constants compute is a parameter: [A], [T], [V] and [P] are the types of C expression
    statements and declarations, of conditions, of switch expressions and of case constants; [gen]
    and [vgen] give the shell commands that pnut emits for a simple statement (comp_assignment,
    comp_fun_call, comp_var_decls) and for the calls it hoists out of a switch expression.  Every
    theorem holds whatever these parameters are.

    Simplifications: a line of generated code is a constructor of [line] and not a text (each
    constructor is one append_glo_decl of a literal string, in the order of the C code); indentation
    is dropped; a line that append_glo_decl would store with text 0, or that undo_glo_decls made
    inactive, is not in the list; case labels are attached to the elements of a block (anywhere else
    comp_statement rejects them, sh.c:2172); "switch (e) case k: s" is written as a switch on a
    one-element block, which is what comp_switch itself does (sh.c:1884-1889); an empty statement and
    an empty block are the node 0 ([SEmpty]), as in the parser; goto is rejected (sh.c:2169) and has
    no constructor; string literals in tests (whose definitions are emitted before the statement)
    are not modelled. *)
From Coq Require Import ZArith List Lia Bool.
Import ListNotations.

(* parse_statement / parse_compound_statement, pnut.c:3754-3925: the statement trees *)
Inductive stmt (A T V P : Type) :=
| SEmpty                                                   (* node 0 *)
| SAtom (a : A)                                            (* expression statement, declaration *)
| SIf (t : T) (a b : stmt A T V P)                                  (* IF_KW; b = SEmpty: no else *)
| SWhile (t : T) (b : stmt A T V P)                                 (* WHILE_KW *)
| SDo (b : stmt A T V P) (t : T)                                    (* DO_KW *)
| SFor (i : option A) (t : option T) (e : option A) (b : stmt A T V P)   (* FOR_KW *)
| SSwitch (v : V) (l : stmts A T V P)                               (* SWITCH_KW *)
| SBreak | SContinue
| SReturn (a : A)                                          (* RETURN_KW; a assigns the result, if any *)
| SBlock (l : stmts A T V P)                                        (* '{' *)
| SLabel (s : stmt A T V P)                                         (* ':' *)
with stmts (A T V P : Type) :=
| Snil
| Scons (labels : list (option P)) (s : stmt A T V P) (l : stmts A T V P).  (* None: default; Some p: case p *)
Arguments SEmpty {A T V P}. Arguments SAtom {A T V P}. Arguments SIf {A T V P}. Arguments SWhile {A T V P}.
Arguments SDo {A T V P}. Arguments SFor {A T V P}. Arguments SSwitch {A T V P}. Arguments SBreak {A T V P}.
Arguments SContinue {A T V P}. Arguments SReturn {A T V P}. Arguments SBlock {A T V P}. Arguments SLabel {A T V P}.
Arguments Snil {A T V P}. Arguments Scons {A T V P}.

Scheme stmt_ind2 := Induction for stmt Sort Prop
with stmts_ind2 := Induction for stmts Sort Prop.
Combined Scheme stmt_stmts_ind from stmt_ind2, stmts_ind2.

(* the lines appended to glo_decls; every constructor is one literal of sh.c *)
Inductive line (T V P K : Type) :=
| LCmd (k : K)                      (* a simple command *)
| LIf (t : T) | LElif (t : T) | LElse | LFi               (* "if t ; then" "elif t ; then" "else" "fi", sh.c:1941-1971 *)
| LWhile (t : option T) | LDone     (* "while t; do" (None: ":") "done", sh.c:2012-2021 *)
| LOrBreak (t : T)                  (* "t || break", sh.c:2147 *)
| LCase (v : V) | LEsac             (* "case v in" "esac", sh.c:1871,1913 *)
| LPat (ps : list (option P)) | LDsemi   (* the alternatives separated by bars, and ";;", sh.c:1838,1909 *)
| LBreak (n : nat)                  (* "break" / "break n", sh.c:2033,2081 *)
| LContinue | LReturn               (* sh.c:2043,2087 *)
| LRestore                          (* restore_local_vars, sh.c:2086,2268 *)
| LColon                            (* ":" *)
| LComment.                         (* "# label:", sh.c:2165 *)
Arguments LCmd {T V P K}. Arguments LIf {T V P K}. Arguments LElif {T V P K}. Arguments LElse {T V P K}.
Arguments LFi {T V P K}. Arguments LWhile {T V P K}. Arguments LDone {T V P K}. Arguments LOrBreak {T V P K}.
Arguments LCase {T V P K}. Arguments LEsac {T V P K}. Arguments LPat {T V P K}. Arguments LDsemi {T V P K}.
Arguments LBreak {T V P K}. Arguments LContinue {T V P K}. Arguments LReturn {T V P K}. Arguments LRestore {T V P K}.
Arguments LColon {T V P K}. Arguments LComment {T V P K}.

(* bindings of cgc_locals that matter here: env.c:138-160 *)
Inductive bind (K : Type) := BLoop (e : list K) | BSwitch (tail : bool).
Arguments BLoop {K}. Arguments BSwitch {K}.

Section Comp.
Variables A T V P K : Type.
Variable gen : A -> list K.
Variable vgen : V -> list K.
Notation stm := (stmt A T V P).
Notation stms := (stmts A T V P).
Notation ln := (line T V P K).

Definition cmds (l : list K) : list ln := map LCmd l.
(* cgc_loop_depth, env.c:108-116 *)
Definition loop_depth (env : list (bind K)) : nat :=
  length (filter (fun b => match b with BLoop _ => true | BSwitch _ => false end) env).
(* heap[binding+2..3] of the nearest loop, sh.c:2039-2041 *)
Fixpoint enclosing_loop (env : list (bind K)) : option (list K) :=
  match env with
  | [] => None
  | BLoop e :: _ => Some e
  | BSwitch _ :: r => enclosing_loop r
  end.
(* any_active_glo_decls and ":", sh.c:1950,1963,2018 *)
Definition fill (c : list ln) : list ln := match c with [] => [LColon] | _ => c end.
(* make_switch_pattern, sh.c:1838-1862: "default" restarts the pattern *)
Fixpoint pattern (ls : list (option P)) (str : list (option P)) : list (option P) :=
  match ls with
  | [] => str
  | None :: r => pattern r [None]
  | Some p :: r => pattern r (str ++ [Some p])
  end.
Definition oapp (o : option A) : list K := match o with Some a => gen a | None => [] end.
Definition comp_ret (a : A) (env : list (bind K)) (tail : bool) : list ln * bool * bool :=
  let tail1 := match env with BSwitch t :: _ => tail || t | _ => tail end in
  (cmds (gen a) ++
     (if tail1 then match loop_depth env with O => [] | n => [LBreak n] end
      else [LRestore; LReturn]), true, tail1).

(* comp_statement: [env] = cgc_locals, [sw] = STMT_CTX_SWITCH, [ei] = STMT_CTX_ELSE_IF, [tail] =
   in_tail_position.  Result: the lines, "always returns/breaks", the new in_tail_position; None is a
   fatal error.  sh.c:2120-2188 *)
Fixpoint comp (s : stm) (env : list (bind K)) (sw ei tail : bool) {struct s} : option (list ln * bool * bool) :=
  match s with
  | SEmpty => Some ([], false, tail)
  | SAtom a => Some (cmds (gen a), false, tail)
  | SIf t a b =>                                                       (* comp_if, sh.c:1932-1978 *)
      match comp a env sw false tail with
      | None => None
      | Some (ca, qa, t1) =>
          match
            match b with
            | SEmpty => Some ([], false, t1)
            | SIf _ _ _ => comp b env sw true t1
            | _ => match comp b env sw false t1 with
                   | None => None
                   | Some (cb, qb, t2) => Some (LElse :: fill cb, qb, t2)
                   end
            end with
          | None => None
          | Some (cb, qb, t2) =>
              if sw && xorb qa qb then None                            (* early break out of a switch case *)
              else Some ((if ei then LElif t else LIf t) :: fill ca ++ cb ++ (if ei then [] else [LFi]),
                         qa && qb, t2)
          end
      end
  | SWhile t b =>                                                      (* comp_loop, sh.c:1984-2026 *)
      match comp b (BLoop [] :: env) sw false tail with
      | None => None
      | Some (c, _, t1) => Some (LWhile (Some t) :: fill c ++ [LDone], false, t1)
      end
  | SDo b t =>
      match comp b (BLoop [] :: env) sw false tail with
      | None => None
      | Some (c, _, t1) => Some (LWhile None :: c ++ [LOrBreak t; LDone], false, t1)
      end
  | SFor i t e b =>
      match comp b (BLoop (oapp e) :: env) sw false tail with
      | None => None
      | Some (c, q, t1) =>
          Some (cmds (oapp i) ++ LWhile t :: fill (c ++ cmds (oapp e)) ++ [LDone],
                match t with None => q | Some _ => false end, t1)
      end
  | SSwitch v l =>                                                     (* comp_switch, sh.c:1867-1930 *)
      match l with
      | Snil => None
      | _ => match comp_cases l (BSwitch tail :: env) false tail with
             | None => None
             | Some (c, t1) => Some (cmds (vgen v) ++ LCase v :: c ++ [LEsac], false, t1)
             end
      end
  | SBreak =>                                                          (* comp_break, sh.c:2029-2036 *)
      match env with
      | [] => None
      | BLoop _ :: _ => Some ([LBreak 1], true, tail)
      | BSwitch _ :: _ => Some ([], true, tail)
      end
  | SContinue =>                                                       (* comp_continue, sh.c:2038-2045 *)
      match enclosing_loop env with
      | None => None
      | Some e => Some (cmds e ++ [LContinue], false, tail)
      end
  | SReturn a => Some (comp_ret a env tail)                            (* comp_return, sh.c:2047-2090 *)
  | SBlock l => comp_body l env sw tail false
  | SLabel s =>
      match comp s env sw false tail with
      | None => None
      | Some (c, q, t1) => Some (LComment :: c, q, t1)
      end
  end
(* comp_body, sh.c:1811-1828 *)
with comp_body (l : stms) (env : list (bind K)) (sw start tail : bool) {struct l} : option (list ln * bool * bool) :=
  match l with
  | Snil => Some ([], false, tail)
  | Scons (_ :: _) _ _ => None
  | Scons [] s r =>
      match comp s env sw false (match r with Snil => start | _ => tail end) with
      | None => None
      | Some (c, true, t1) => Some (c, true, t1)
      | Some (c, false, t1) =>
          match comp_body r env sw start t1 with
          | None => None
          | Some (c2, q, t2) => Some (c ++ c2, q, t2)
          end
      end
  end
(* the two nested loops of comp_switch, sh.c:1891-1911; [inside]: in the inner one *)
with comp_cases (l : stms) (env : list (bind K)) (inside tail : bool) {struct l} : option (list ln * bool) :=
  match l with
  | Snil => Some (if inside then [LDsemi] else [], tail)
  | Scons labels s r =>
      let go (hd : list ln) (t0 : bool) :=
        match comp s env true false t0 with
        | None => None
        | Some (c, q, t1) =>
            match comp_cases r env (negb q) t1 with
            | None => None
            | Some (c2, t2) => Some (hd ++ c ++ (if q then [LDsemi] else []) ++ c2, t2)
            end
        end in
      match labels, inside with
      | [], true => go [] tail
      | _ :: _, true => None
      | [], false => None                                              (* "Expected case in switch" *)
      | _ :: _, false => go [LPat (pattern labels [])] false
      end
  end.

(* comp_glo_fun_decl, sh.c:2238-2290: [pre] are the lines that save the locals and bind the
   parameters; the restoration follows the body *)
Definition comp_fun (pre : list K) (l : stms) : option (list ln) :=
  match comp_body l [] false true false with
  | None => None
  | Some (c, _, _) => Some (cmds pre ++ c ++ [LRestore])
  end.
End Comp.

(** ** The shell's grammar and meaning (POSIX, 2.9.4 and 2.14) *)

Inductive sh (T V P K : Type) :=
| HCmd (k : K) | HColon | HBreak (n : nat) | HContinue | HReturn | HRestore
| HOrBreak (t : T)
| HIf (t : T) (a b : list (sh T V P K))                      (* no else: the empty list *)
| HWhile (t : option T) (b : list (sh T V P K))
| HCase (v : V) (cs : list (list (option P) * list (sh T V P K))).
Arguments HCmd {T V P K}. Arguments HColon {T V P K}. Arguments HBreak {T V P K}. Arguments HContinue {T V P K}.
Arguments HReturn {T V P K}. Arguments HRestore {T V P K}. Arguments HOrBreak {T V P K}. Arguments HIf {T V P K}.
Arguments HWhile {T V P K}. Arguments HCase {T V P K}.

Section Gram.
Variables T V P K : Type.
Notation ln := (line T V P K).
Notation hs := (sh T V P K).

(* [prog ls cs]: the lines are the command list cs.  The bodies of if and while cannot be empty.
   [tails ls b]: what may follow the body of an if, up to and including "fi".
   [clauses ls cs]: the clauses of a case. *)
Inductive prog : list ln -> list hs -> Prop :=
| P_nil : prog [] []
| P_comment l c : prog l c -> prog (LComment :: l) c
| P_cmd k l c : prog l c -> prog (LCmd k :: l) (HCmd k :: c)
| P_colon l c : prog l c -> prog (LColon :: l) (HColon :: c)
| P_break n l c : prog l c -> prog (LBreak n :: l) (HBreak n :: c)
| P_continue l c : prog l c -> prog (LContinue :: l) (HContinue :: c)
| P_return l c : prog l c -> prog (LReturn :: l) (HReturn :: c)
| P_restore l c : prog l c -> prog (LRestore :: l) (HRestore :: c)
| P_orbreak t l c : prog l c -> prog (LOrBreak t :: l) (HOrBreak t :: c)
| P_while t b cb l c : prog b cb -> cb <> [] -> prog l c -> prog (LWhile t :: b ++ LDone :: l) (HWhile t cb :: c)
| P_if t b cb r cr l c : prog b cb -> cb <> [] -> tails r cr -> prog l c ->
    prog (LIf t :: b ++ r ++ l) (HIf t cb cr :: c)
| P_case v r cs l c : clauses r cs -> prog l c -> prog (LCase v :: r ++ LEsac :: l) (HCase v cs :: c)
with tails : list ln -> list hs -> Prop :=
| T_fi : tails [LFi] []
| T_else b cb : prog b cb -> cb <> [] -> tails (LElse :: b ++ [LFi]) cb
| T_elif t b cb r cr : prog b cb -> cb <> [] -> tails r cr -> tails (LElif t :: b ++ r) [HIf t cb cr]
with clauses : list ln -> list (list (option P) * list hs) -> Prop :=
| C_nil : clauses [] []
| C_cons ps b cb r cs : ps <> [] -> prog b cb -> clauses r cs -> clauses (LPat ps :: b ++ LDsemi :: r) ((ps, cb) :: cs).

Scheme prog_ind2 := Induction for prog Sort Prop
with tails_ind2 := Induction for tails Sort Prop
with clauses_ind2 := Induction for clauses Sort Prop.
Combined Scheme gram_ind from prog_ind2, tails_ind2, clauses_ind2.
End Gram.

(* results of simple commands, tests and switch values; [Halt]: the whole program ends there *)
Inductive ares (St : Type) := Norm (s : St) | Halt (s : St).
Inductive tres (St : Type) := TVal (b : bool) (s : St) | THalt (s : St).
Inductive vres (St : Type) := VVal (z : Z) (s : St) | VHalt (s : St).
Arguments Norm {St}. Arguments Halt {St}. Arguments TVal {St}. Arguments THalt {St}. Arguments VVal {St}. Arguments VHalt {St}.
(* outcomes of shell commands: normal end, break n, continue, return, program end *)
Inductive hout (St : Type) := ON (s : St) | OB (n : nat) (s : St) | OC (s : St) | OR (s : St) | OH (s : St).
Arguments ON {St}. Arguments OB {St}. Arguments OC {St}. Arguments OR {St}. Arguments OH {St}.
(* outcomes of C statements: normal end, break, continue, return, program end *)
Inductive cout (St : Type) := CN (s : St) | CB (s : St) | CC (s : St) | CR (s : St) | CH (s : St).
Arguments CN {St}. Arguments CB {St}. Arguments CC {St}. Arguments CR {St}. Arguments CH {St}.

Section Shell.
Variables T V P K St : Type.
Variable cmd : K -> St -> ares St.            (* a simple command *)
Variable tst : T -> St -> tres St.            (* the exit status of a test *)
Variable word : V -> St -> vres St.           (* the word of a case, a decimal numeral *)
Variable pmatch : P -> St -> Z -> bool.       (* a case pattern *)
Variable restore : St -> St.                  (* restore_local_vars *)
Notation hs := (sh T V P K).

Fixpoint runk (l : list K) (s : St) : ares St :=
  match l with
  | [] => Norm s
  | k :: r => match cmd k s with Norm s1 => runk r s1 | Halt s1 => Halt s1 end
  end.
(* [loop t body n s]: a while loop, at most n rounds; None: not finished.  Break n+1 leaves n more loops *)
Fixpoint hloop (t : option T) (body : St -> option (hout St)) (n : nat) (s : St) : option (hout St) :=
  match n with
  | O => None
  | S n =>
      let go (s1 : St) :=
        match body s1 with
        | None => None
        | Some (ON s2) | Some (OC s2) => hloop t body n s2
        | Some (OB (S (S k)) s2) => Some (OB (S k) s2)
        | Some (OB _ s2) => Some (ON s2)
        | Some (OR s2) => Some (OR s2)
        | Some (OH s2) => Some (OH s2)
        end in
      match t with
      | None => go s
      | Some t => match tst t s with
                  | THalt s1 => Some (OH s1)
                  | TVal false s1 => Some (ON s1)
                  | TVal true s1 => go s1
                  end
      end
  end.
Definition hseq (o : option (hout St)) (k : St -> option (hout St)) : option (hout St) :=
  match o with Some (ON s) => k s | _ => o end.
Definition pat_ok (ps : list (option P)) (z : Z) (s : St) : bool :=
  existsb (fun p => match p with None => true | Some p => pmatch p s z end) ps.
Fixpoint heval (F : nat) (c : hs) (s : St) {struct c} : option (hout St) :=
  let list_eval := fix list_eval (l : list hs) (s : St) {struct l} : option (hout St) :=
    match l with
    | [] => Some (ON s)
    | c :: r => hseq (heval F c s) (list_eval r)
    end in
  match c with
  | HCmd k => Some (match cmd k s with Norm s1 => ON s1 | Halt s1 => OH s1 end)
  | HColon => Some (ON s)
  | HBreak n => Some (OB n s)
  | HContinue => Some (OC s)
  | HReturn => Some (OR s)
  | HRestore => Some (ON (restore s))
  | HOrBreak t => Some (match tst t s with THalt s1 => OH s1 | TVal true s1 => ON s1 | TVal false s1 => OB 1 s1 end)
  | HIf t a b =>
      match tst t s with
      | THalt s1 => Some (OH s1)
      | TVal true s1 => list_eval a s1
      | TVal false s1 => list_eval b s1
      end
  | HWhile t b => hloop t (list_eval b) F s
  | HCase v cs =>
      match word v s with
      | VHalt s1 => Some (OH s1)
      | VVal z s1 =>
          (fix pick (cs : list (list (option P) * list hs)) : option (hout St) :=
             match cs with
             | [] => Some (ON s1)
             | (ps, b) :: r => if pat_ok ps z s1 then list_eval b s1 else pick r
             end) cs
      end
  end.
Fixpoint hevals (F : nat) (l : list hs) (s : St) : option (hout St) :=
  match l with
  | [] => Some (ON s)
  | c :: r => hseq (heval F c s) (hevals F r)
  end.
Fixpoint hpick (F : nat) (cs : list (list (option P) * list hs)) (z : Z) (s : St) : option (hout St) :=
  match cs with
  | [] => Some (ON s)
  | (ps, b) :: r => if pat_ok ps z s then hevals F b s else hpick F r z s
  end.
End Shell.

(** ** The C statements' meaning (ISO C, 6.8) *)
Section Csem.
Variables A T V P St : Type.
Variable act : A -> St -> ares St.            (* an expression statement or declaration *)
Variable tst : T -> St -> tres St.            (* a condition *)
Variable val : V -> St -> vres St.            (* a switch expression *)
Variable kval : P -> Z.                       (* a case constant *)
Notation stm := (stmt A T V P).
Notation stms := (stmts A T V P).

(* at most n rounds; a round is: test, body, end-of-round action *)
Fixpoint cloop (t : option T) (body : St -> option (cout St)) (e : option A) (n : nat) (s : St) : option (cout St) :=
  match n with
  | O => None
  | S n =>
      let next (s2 : St) :=
        match e with
        | None => cloop t body e n s2
        | Some a => match act a s2 with Norm s3 => cloop t body e n s3 | Halt s3 => Some (CH s3) end
        end in
      let go (s1 : St) :=
        match body s1 with
        | None => None
        | Some (CN s2) | Some (CC s2) => next s2
        | Some (CB s2) => Some (CN s2)
        | Some (CR s2) => Some (CR s2)
        | Some (CH s2) => Some (CH s2)
        end in
      match t with
      | None => go s
      | Some t => match tst t s with
                  | THalt s1 => Some (CH s1)
                  | TVal false s1 => Some (CN s1)
                  | TVal true s1 => go s1
                  end
      end
  end.
(* a do loop: body, then test *)
Fixpoint dloop (body : St -> option (cout St)) (t : T) (n : nat) (s : St) : option (cout St) :=
  match n with
  | O => None
  | S n =>
      match body s with
      | None => None
      | Some (CN s2) | Some (CC s2) =>
          match tst t s2 with
          | THalt s1 => Some (CH s1)
          | TVal false s1 => Some (CN s1)
          | TVal true s1 => dloop body t n s1
          end
      | Some (CB s2) => Some (CN s2)
      | Some (CR s2) => Some (CR s2)
      | Some (CH s2) => Some (CH s2)
      end
  end.
Definition has_case (z : Z) (ls : list (option P)) : bool :=
  existsb (fun p => match p with Some p => Z.eqb z (kval p) | None => false end) ls.
Definition has_default (ls : list (option P)) : bool :=
  existsb (fun p => match p with None => true | Some _ => false end) ls.
(* the statements from the first one that satisfies f on *)
Fixpoint from (f : list (option P) -> bool) (l : stms) : option stms :=
  match l with
  | Snil => None
  | Scons ls _ r => if f ls then Some l else from f r
  end.
Definition to_int (o : option A) (s : St) : ares St := match o with Some a => act a s | None => Norm s end.

Fixpoint ceval (F : nat) (c : stm) (s : St) {struct c} : option (cout St) :=
  match c with
  | SEmpty => Some (CN s)
  | SAtom a => Some (match act a s with Norm s1 => CN s1 | Halt s1 => CH s1 end)
  | SIf t a b => match tst t s with
                 | THalt s1 => Some (CH s1)
                 | TVal true s1 => ceval F a s1
                 | TVal false s1 => ceval F b s1
                 end
  | SWhile t b => cloop (Some t) (ceval F b) None F s
  | SDo b t => dloop (ceval F b) t F s
  | SFor i t e b => match to_int i s with
                    | Halt s1 => Some (CH s1)
                    | Norm s1 => cloop t (ceval F b) e F s1
                    end
  | SSwitch v l =>
      match val v s with
      | VHalt s1 => Some (CH s1)
      | VVal z s1 =>
          match cjump F (match from (has_case z) l with Some _ => has_case z | None => has_default end) l s1 with
          | Some (CB s2) => Some (CN s2)
          | o => o
          end
      end
  | SBreak => Some (CB s)
  | SContinue => Some (CC s)
  | SReturn a => Some (match act a s with Norm s1 => CR s1 | Halt s1 => CH s1 end)
  | SBlock l => cevals F l s
  | SLabel c => ceval F c s
  end
with cevals (F : nat) (l : stms) (s : St) {struct l} : option (cout St) :=
  match l with
  | Snil => Some (CN s)
  | Scons _ c r => match ceval F c s with
                   | Some (CN s1) => cevals F r s1
                   | o => o
                   end
  end
(* start at the first statement whose labels satisfy f; none: do nothing *)
with cjump (F : nat) (f : list (option P) -> bool) (l : stms) (s : St) {struct l} : option (cout St) :=
  match l with
  | Snil => Some (CN s)
  | Scons ls c r => if f ls then
                      match ceval F c s with
                      | Some (CN s1) => cevals F r s1
                      | o => o
                      end
                    else cjump F f r s
  end.
End Csem.

(** ** The statements for which the code is right *)
Section Ok.
Variables A T V P : Type.
Notation stm := (stmt A T V P).
Notation stms := (stmts A T V P).

(* a break of the enclosing loop or switch *)
Fixpoint breaks (c : stm) : bool :=
  match c with
  | SBreak => true
  | SIf _ a b => breaks a || breaks b
  | SBlock l => breaksl l
  | SLabel c => breaks c
  | _ => false
  end
with breaksl (l : stms) : bool :=
  match l with Snil => false | Scons _ c r => breaks c || breaksl r end.
(* a continue of the enclosing loop *)
Fixpoint continues (c : stm) : bool :=
  match c with
  | SContinue => true
  | SIf _ a b => continues a || continues b
  | SBlock l | SSwitch _ l => continuesl l
  | SLabel c => continues c
  | _ => false
  end
with continuesl (l : stms) : bool :=
  match l with Snil => false | Scons _ c r => continues c || continuesl r end.
(* statements pnut takes to end in a break or return on every path *)
Fixpoint ends (c : stm) : bool :=
  match c with
  | SBreak | SReturn _ => true
  | SIf _ a b => ends a && ends b
  | SFor _ None _ b => ends b
  | SBlock l => endsl l
  | SLabel c => ends c
  | _ => false
  end
with endsl (l : stms) : bool :=
  match l with Snil => false | Scons _ c r => ends c || endsl r end.
Fixpoint nolabels (l : stms) : bool :=
  match l with Snil => true | Scons ls _ r => match ls with [] => nolabels r | _ => false end end.
(* the default label comes after every case label *)
Fixpoint default_last (l : stms) : bool :=
  match l with
  | Snil => true
  | Scons ls _ r => if has_default P ls then nolabels r else default_last r
  end.
(* no continue of a do loop; default last; no "for (;;)" that pnut takes never to end normally and
   that is left by a break; no goto labels *)
Fixpoint ok (c : stm) : bool :=
  match c with
  | SIf _ a b => ok a && ok b
  | SWhile _ b => ok b
  | SDo b _ => ok b && negb (continues b)
  | SFor _ None _ b => ok b && negb (ends b && breaks b)
  | SFor _ _ _ b => ok b
  | SSwitch _ l => okl l && default_last l
  | SBlock l => okl l
  | SLabel _ => false
  | _ => true
  end
with okl (l : stms) : bool :=
  match l with Snil => true | Scons _ c r => ok c && okl r end.
End Ok.
