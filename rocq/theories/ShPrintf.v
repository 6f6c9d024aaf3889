(* printf with a constant format, compiled to the shell's printf (sh.c 1527-1555, 1557-1725, 1735-1742),
   and the shell's printf utility. *)
From Coq Require Import ZArith List Bool Lia.
From Verif Require Import Base Text ShStr.
Import ListNotations.
Open Scope Z_scope.

(* ---- a loop over a string: at each character the step consumes it and possibly more ---- *)
Section Iter.
Context {T R : Type}.
Variable step : Z -> list Z -> T -> option (list Z * T).
Variable fin : T -> R.
Fixpoint iter (n : nat) (f : list Z) (s : T) : option R :=
  match n, f with
  | _, [] => Some (fin s)
  | O, _ => None
  | S n, c :: t => match step c t s with Some (f', s') => iter n f' s' | None => None end
  end.
Definition run (f : list Z) (s : T) : option R := iter (length f) f s.
End Iter.

(* the longest prefix satisfying a test, and the rest *)
Fixpoint span (P : Z -> bool) (l : list Z) : list Z * list Z :=
  match l with
  | c :: t => if P c then let (a, b) := span P t in (c :: a, b) else ([], l)
  | [] => ([], [])
  end.
Definition isdig (c : Z) : bool := (48 <=? c) && (c <=? 57).
(* ' ' '#' '+' '-' '0' *)
Definition isflag (c : Z) : bool := (c =? 32) || (c =? 35) || (c =? 43) || (c =? 45) || (c =? 48).
(* d i o u x X *)
Definition isint (c : Z) : bool := (c =? 100) || (c =? 105) || (c =? 111) || (c =? 117) || (c =? 120) || (c =? 88).

(* ---- the compiler ---- *)
(* A parameter of the call: a character constant or another expression.  Expressions are not looked into
   (C19, C27): they have no side effects and their text, comp_rvalue(param, RVALUE_CTX_BASE), expands to their value. *)
Inductive par := ParChar (c : Z) | ParExp (k : nat).
(* A word after the format: the text of a parameter, or "$(_put_pstr __ <text>)" *)
Inductive word := WRef (p : par) | WSub (p : par).
(* The commands appended with append_glo_decl:
   printf [--] "<text>" <words>;  printf "<text>";  printf \\$((p/64))$((p/8%8))$((p%8));  _put_pstr __ <p> *)
Inductive cmd := Cprintf (dd : bool) (text : list Z) (ws : list word) | Clit (text : list Z) | Coct (p : par) | Cpstr (p : par).

(* sh.c 1557-1569 printf_call; an empty piece gives no command *)
Definition printf_call (format : list Z) (params : list word) (escape : bool) : list cmd :=
  match format with
  | [] => []
  | c :: _ => [Cprintf (c =? 45) (flat_map (fun c => print_escaped_char c escape) format) params]
  end.
(* sh.c 1527-1555 comp_putchar_inline, for a parameter without side effects *)
Definition comp_putchar_inline (p : par) : cmd :=
  match p with
  | ParChar c => match putchar_literal c with Some t => Clit t | None => Coct p end
  | ParExp _ => Coct p
  end.

(* The variables of handle_printf_call (sh.c 1582-1594).  [pre] and [seg] are the format from format_start to
   specifier_start and to format_str; the current parameter and the list of the next ones are one list [pars]
   (param == 0 exactly when it is empty, because the loop fetches the next one before it looks at a character). *)
Record st := mk { pre : list Z; seg : list Z; pt : list word; wt : option par; qt : option par;
  md : bool; hw : bool; hp : bool; ph : Z; pars : list par; out : list cmd }.
Definition opt (w : option par) : list word := match w with Some p => [WRef p] | None => [] end.
(* sh.c 1596-1717: the body of the loop on *format_str = c, followed by t; None = fatal_error *)
Definition step (c : Z) (t : list Z) (s : st) : option (list Z * st) :=
  let '(mk pre seg pt wt qt md hw hp ph pars out) := s in
  if md then
    if isflag c then (* 1604-1608 *)
      if ph =? 0 then Some (t, mk pre (seg ++ [c]) pt wt qt md hw hp ph pars out) else None
    else if isdig c then (* 1611-1620; '0' is a flag *)
      if (ph =? 0) || (ph =? 2) then
        let (ds, r) := span isdig (c :: t) in
        Some (r, mk pre (seg ++ ds) pt wt qt md (if ph =? 0 then true else hw) (if ph =? 2 then true else hp) (ph + 1) pars out)
      else None
    else if c =? 46 then (* 1623-1626 *)
      if 2 <=? ph then None else Some (t, mk pre (seg ++ [c]) pt wt qt md hw hp 2 pars out)
    else if c =? 42 then (* 1628-1640 *)
      match pars with
      | [] => None
      | p :: pars =>
        if ph =? 0 then Some (t, mk pre (seg ++ [c]) pt (Some p) qt md true hp ph pars out)
        else if ph =? 2 then Some (t, mk pre (seg ++ [c]) pt wt (Some p) md hw true ph pars out)
        else None
      end
    else if c =? 37 then (* 1642-1645 *)
      if ph =? 0 then Some (t, mk pre (seg ++ [c]) pt wt qt false hw hp ph pars out) else None
    else if (c =? 108) || isint c then (* 1648-1663 *)
      match span (Z.eqb 108) (c :: t) with
      | (ls, d :: r) =>
        if isint d then
          match pars with
          | [] => None
          | p :: pars => Some (r, mk pre (seg ++ ls ++ [d]) (pt ++ opt wt ++ opt qt ++ [WRef p]) wt qt false hw hp ph pars out)
          end
        else None
      | (_, []) => None
      end
    else if c =? 99 then (* 1669-1682 *)
      match pars with
      | [] => None
      | p :: pars =>
        if hw then None
        else Some (t, mk pre [] [] wt qt false hw hp ph pars (out ++ printf_call pre pt false ++ [comp_putchar_inline p]))
      end
    else if c =? 115 then (* 1685-1704; the parameters are not reset after the printf of line 1697 *)
      match pars with
      | [] => None
      | p :: pars =>
        if hw || hp then Some (t, mk pre (seg ++ [c]) (pt ++ opt wt ++ opt qt ++ [WSub p]) wt qt false hw hp ph pars out)
        else Some (t, mk pre [] pt wt qt false hw hp ph pars (out ++ printf_call pre pt false ++ [Cpstr p]))
      end
    else None
  else if c =? 37 then (* 1711-1716 *)
    Some (t, mk seg (seg ++ [c]) pt None None true false false 0 pars out)
  else Some (t, mk pre (seg ++ [c]) pt wt qt md hw hp ph pars out).
(* sh.c 1722-1724 *)
Definition finish (s : st) : list cmd := out s ++ printf_call (seg s) (pt s) false.
(* sh.c 1580-1725; the format is the string constant up to its NUL *)
Definition handle_printf_call (format : list Z) (params : list par) : option (list cmd) :=
  run step finish format (mk [] [] [] None None false false false 0 params []).
(* sh.c 1735-1742, for a format that is a string constant: printf("...") and printf("...", ...) *)
Definition comp_printf (format : list Z) (params : list par) : option (list cmd) :=
  match params with
  | [] => Some (match format with [] => [Cprintf false [] []] | _ => printf_call format [] true end)
  | _ => handle_printf_call format params
  end.
(* sh.c 1736-1739: puts("...") and putstr("...") *)
Definition comp_puts (s : list Z) : list cmd := match s with [] => [Cprintf false [] []] | _ => printf_call s [] true end.

(* ---- conversions ---- *)
Inductive num := Lit (ds : list Z) | Star.
Record dir := { flags : list Z; width : option num; prec : option num; ells : list Z; conv : Z }.
Definition numval (ds : list Z) : Z := fold_left (fun v d => 10 * v + (d - 48)) ds 0.
(* C17 7.21.6.1: a string (or a character) in a field *)
Definition fmt_str (fl : list Z) (w p : option Z) (s : list Z) : list Z :=
  let s := match p with Some p => if 0 <=? p then firstn (Z.to_nat p) s else s | None => s end in
  match w with
  | None => s
  | Some w =>
    let pad := repeat 32 (Z.to_nat (Z.abs w - Z.of_nat (length s))) in
    if (w <? 0) || existsb (Z.eqb 45) fl then s ++ pad else pad ++ s
  end.
(* An integer or a string *)
Inductive arg := VInt (v : Z) | VStr (s : list Z).

(* ---- the shell's printf utility (POSIX XCU printf, with the length modifier l and * as in bash) ---- *)
Section Shell.
(* digits of an integer in a field: flags, width, precision, conversion, value.  The same as in C (XBD 5). *)
Variable fmt_int : list Z -> option Z -> option Z -> Z -> Z -> list Z.

(* after %: flags, width, precision, l, conversion *)
Definition get_num (l : list Z) : option num * list Z :=
  match l with
  | c :: t => if c =? 42 then (Some Star, t) else match span isdig l with ([], _) => (None, l) | (ds, r) => (Some (Lit ds), r) end
  | [] => (None, [])
  end.
Definition get_prec (l : list Z) : option num * list Z :=
  match l with
  | c :: t => if c =? 46 then match get_num t with (Some n, r) => (Some n, r) | (None, r) => (Some (Lit []), r) end else (None, l)
  | [] => (None, [])
  end.
Definition get_dir (l : list Z) : option (dir * list Z) :=
  let (fl, l) := span isflag l in let (w, l) := get_num l in let (p, l) := get_prec l in let (e, l) := span (Z.eqb 108) l in
  match l with c :: r => Some ({| flags := fl; width := w; prec := p; ells := e; conv := c |}, r) | [] => None end.
(* arguments are taken in order; a missing one is 0 or empty *)
Definition sh_num (n : option num) (a : list arg) : option (option Z * list arg) :=
  match n with
  | None => Some (None, a)
  | Some (Lit ds) => Some (Some (numval ds), a)
  | Some Star => match a with VInt v :: a => Some (Some v, a) | [] => Some (Some 0, []) | _ => None end
  end.
Definition sh_dir (d : dir) (a : list arg) : option (list Z * list arg) :=
  match sh_num (width d) a with
  | Some (w, a) =>
    match sh_num (prec d) a with
    | Some (p, a) =>
      if isint (conv d) then
        match a with
        | VInt v :: a => Some (fmt_int (flags d) w p (conv d) (if (conv d =? 100) || (conv d =? 105) then v else v mod 2 ^ 64), a)
        | [] => Some (fmt_int (flags d) w p (conv d) 0, [])
        | _ => None
        end
      else if conv d =? 115 then
        match a with
        | VStr s :: a => Some (fmt_str (flags d) w p s, a)
        | VInt v :: a => Some (fmt_str (flags d) w p (dec v), a)
        | [] => Some (fmt_str (flags d) w p [], [])
        end
      else None
    | None => None
    end
  | None => None
  end.
(* one pass over the format; the state is the output and the remaining arguments *)
Definition sh_step (c : Z) (t : list Z) (s : list Z * list arg) : option (list Z * (list Z * list arg)) :=
  let (o, a) := s in
  if c =? 37 then
    match t with
    | 37 :: t => Some (t, (o ++ [37], a))
    | _ => match get_dir t with
           | Some (d, t) => match sh_dir d a with Some (x, a) => Some (t, (o ++ x, a)) | None => None end
           | None => None
           end
    end
  else if c =? 92 then
    match t with
    | d :: t => if isoct d then None else match sh_fmt [92; d] with Some x => Some (t, (o ++ x, a)) | None => None end
    | [] => None
    end
  else Some (t, (o ++ [c], a)).
Definition sh_pass (f : list Z) (a : list arg) : option (list Z * list arg) := run sh_step (fun s => s) f ([], a).
(* the format is reused until the arguments are used up, unless a pass takes none *)
Fixpoint sh_printf (n : nat) (f : list Z) (a : list arg) : option (list Z) :=
  match n with
  | O => None
  | S n =>
    match sh_pass f a with
    | None => None
    | Some (o, []) => Some o
    | Some (o, a') => if (length a' =? length a)%nat then Some o else option_map (app o) (sh_printf n f a')
    end
  end.

(* ---- running the commands ---- *)
Variable env : nat -> arg. (* the value of each parameter that is not a character constant *)
Definition value (p : par) : arg := match p with ParChar c => VInt c | ParExp k => env k end.
(* command substitution removes the newlines at the end *)
Definition strip_nl (s : list Z) : list Z := rev ((fix drop l := match l with 10 :: t => drop t | _ => l end) (rev s)).
Definition word_value (w : word) : option arg :=
  match w with
  | WRef p => match value p with VInt v => Some (VInt v) | VStr _ => None end
  | WSub p => match value p with VStr s => Some (VStr (strip_nl s)) | VInt _ => None end
  end.
Fixpoint all {A} (l : list (option A)) : option (list A) :=
  match l with
  | [] => Some []
  | Some x :: l => option_map (cons x) (all l)
  | None :: _ => None
  end.
Definition exec (c : cmd) : option (list Z) :=
  match c with
  | Cprintf dd text ws =>
    match dquote text, all (map word_value ws) with
    | Some f, Some a => if negb dd && (hd 0 f =? 45) then None (* taken for an option *) else sh_printf (S (length a)) f a
    | _, _ => None
    end
  | Clit text => match dquote text with Some f => sh_fmt f | None => None end
  | Coct p => match value p with VInt v => sh_fmt (octal_word v) | VStr _ => None end
  | Cpstr p => (* _put_pstr (sh-runtime.c 572-587): each byte up to the NUL as putchar does *)
    match value p with VStr s => option_map (@concat Z) (all (map (fun c => sh_fmt (octal_word c)) s)) | VInt _ => None end
  end.
Definition exec_all (l : list cmd) : option (list Z) := option_map (@concat Z) (all (map exec l)).
End Shell.
