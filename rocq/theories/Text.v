(** * Deferred text: model of sh.c:27-330 *)
From Coq Require Import ZArith List Lia Bool.
From Verif Require Import Base Numerals Output AsmProof.
Import ListNotations.
Open Scope Z_scope.

(** sh.c:29-42: the pool, its allocation index, and the node kinds. *)
Record tp := TP { pool : Z -> Z; talloc : Z }.
Definition TEXT_POOL_SIZE := 1000000.
Definition TEXT_TREE := 0. Definition TEXT_INTEGER := 1. Definition TEXT_INTEGER_HEX := 2.
Definition TEXT_INTEGER_OCT := 3. Definition TEXT_STRING := 4. Definition TEXT_ESCAPED := 5.
Definition tp0 (p : Z -> Z) : tp := TP p 1.

(** Every constructor below checks the room, stores consecutive cells and returns the index of the first one:
    [if (text_alloc + n >= SIZE) fatal_error; text_pool[text_alloc + i] = ...; return (text_alloc += n) - n].
    [None]: fatal error. *)
Definition node (cells : list Z) (s : tp) : option (tp * Z) :=
  if TEXT_POOL_SIZE <=? talloc s + zlen cells then None
  else Some (TP (wr (pool s) (talloc s) cells) (talloc s + zlen cells), talloc s).
(** sh.c:80, a macro. *)
Definition wrap_char (c : Z) : Z := - c.
(** sh.c:82-101 *)
Definition wrap_int (i : Z) := node [TEXT_INTEGER; i].
Definition wrap_int_hex (i : Z) := node [TEXT_INTEGER_HEX; i].
Definition wrap_int_oct (i : Z) := node [TEXT_INTEGER_OCT; i].
(** sh.c:117-124 *)
Definition escape_text (t : Z) (for_printf : bool) := node [TEXT_ESCAPED; t; if for_printf then 1 else 0].
(** sh.c:126-169 *)
Definition string_concat (t1 t2 : Z) := node [TEXT_TREE; 2; t1; t2].
Definition string_concat3 (t1 t2 t3 : Z) := node [TEXT_TREE; 3; t1; t2; t3].
Definition string_concat4 (t1 t2 t3 t4 : Z) := node [TEXT_TREE; 4; t1; t2; t3; t4].
Definition string_concat5 (t1 t2 t3 t4 t5 : Z) := node [TEXT_TREE; 5; t1; t2; t3; t4; t5].
(** sh.c:187-201; a pointer is an address. *)
Definition wrap_str_imm (p e : Z) := node [TEXT_STRING; p; e].
Definition wrap_str_lit (p : Z) := wrap_str_imm p 0.
(** sh.c:203-207 *)
Definition concatenate_strings_with (t1 t2 sep : Z) (s : tp) : option (tp * Z) :=
  if t1 =? 0 then Some (s, t2) else if t2 =? 0 then Some (s, t1) else string_concat3 t1 sep t2 s.

(** The byte written by [putchar(c)]; conversion to [char] (signed). *)
Definition byte (c : Z) : Z := c mod 256.
Definition schar (c : Z) : Z := (c + 128) mod 256 - 128.

(** sh.c:222-251 [print_escaped_char]; [c] is a char, compared with the escapes by its byte. *)
Definition print_escaped_char (c : Z) (for_printf : bool) : list Z :=
  let b := byte c in
  if b =? 0 then [92; 48] else if b =? 7 then [92; 97] else if b =? 8 then [92; 98] else if b =? 12 then [92; 102]
  else if b =? 10 then [92; 110] else if b =? 13 then [92; 114] else if b =? 9 then [92; 116] else if b =? 11 then [92; 118]
  else if b =? 92 then [92; 92; 92; 92]
  else if b =? 36 then [92; 36] else if b =? 96 then [92; 96] else if b =? 34 then [92; 34]
  else if (b =? 37) && for_printf then [37; 37]
  else [b].

Section Print.
Variable cm : Z -> Z. (* the compiler's memory, where strings are *)

(** pnut.c:261-266 [putstr]. *)
Fixpoint putstr (fuel : nat) (p : Z) : option (list Z) :=
  match fuel with
  | O => None
  | S f => if cm p =? 0 then Some [] else option_map (cons (byte (cm p))) (putstr f (p + 1))
  end.
(** sh.c:253-265 [print_escaped_string]. *)
Fixpoint pes_end (fuel : nat) (p e : Z) (fp : bool) : option (list Z) :=
  match fuel with
  | O => None
  | S f => if p <? e then option_map (app (print_escaped_char (cm p) fp)) (pes_end f (p + 1) e fp) else Some []
  end.
Fixpoint pes_nul (fuel : nat) (p : Z) (fp : bool) : option (list Z) :=
  match fuel with
  | O => None
  | S f => if cm p =? 0 then Some [] else option_map (app (print_escaped_char (cm p) fp)) (pes_nul f (p + 1) fp)
  end.
Definition print_escaped_string (fuel : nat) (p e : Z) (fp : bool) : option (list Z) :=
  if e =? 0 then pes_nul fuel p fp else pes_end fuel p e fp.
(** sh.c:317-321: the loop on a string with an end pointer. *)
Fixpoint put_until (fuel : nat) (p e : Z) : option (list Z) :=
  match fuel with
  | O => None
  | S f => if (p <? e) || negb (cm p =? 0) then option_map (cons (byte (cm p))) (put_until f (p + 1) e) else Some []
  end.

Fixpoint cat_opt (l : list (option (list Z))) : option (list Z) :=
  match l with
  | [] => Some []
  | Some a :: r => option_map (app a) (cat_opt r)
  | None :: _ => None
  end.
Definition pre (a : list Z) (o : option (list Z)) : option (list Z) := option_map (app a) o.

Variable s : tp.
(** sh.c:267-299 [print_escaped_text].  The loop over the children is a map over their indices. *)
Fixpoint print_escaped_text (fuel : nat) (t : Z) (fp : bool) : option (list Z) :=
  match fuel with
  | O => None
  | S f =>
      if t =? 0 then Some []
      else if t <? 0 then Some (print_escaped_char (- t) fp)
      else let k := pool s t in
      if k =? TEXT_TREE then
        cat_opt (map (fun i => let x := pool s (t + Z.of_nat i + 2) in
                   if x <? 0 then Some (print_escaped_char (- schar x) fp) else print_escaped_text f x fp)
                 (seq 0 (Z.to_nat (pool s (t + 1)))))
      else if k =? TEXT_INTEGER then putint (pool s (t + 1))
      else if k =? TEXT_INTEGER_HEX then pre [48; 120] (puthex_unsigned 9 (pool s (t + 1)))
      else if k =? TEXT_INTEGER_OCT then pre [48] (putoct_unsigned 12 (pool s (t + 1)))
      else if k =? TEXT_STRING then print_escaped_string f (pool s (t + 1)) (pool s (t + 2)) fp
      else None
  end.
(** sh.c:301-330 [print_text]. *)
Fixpoint print_text (fuel : nat) (t : Z) : option (list Z) :=
  match fuel with
  | O => None
  | S f =>
      if t =? 0 then Some []
      else if t <? 0 then Some [byte (- t)]
      else let k := pool s t in
      if k =? TEXT_TREE then
        cat_opt (map (fun i => let x := pool s (t + Z.of_nat i + 2) in
                   if x <? 0 then Some [byte (- schar x)] else print_text f x)
                 (seq 0 (Z.to_nat (pool s (t + 1)))))
      else if k =? TEXT_INTEGER then putint (pool s (t + 1))
      else if k =? TEXT_INTEGER_HEX then pre [48; 120] (puthex_unsigned 9 (pool s (t + 1)))
      else if k =? TEXT_INTEGER_OCT then pre [48] (putoct_unsigned 12 (pool s (t + 1)))
      else if k =? TEXT_STRING then
        if pool s (t + 2) mod 4294967296 =? 0 then putstr f (pool s (t + 1))
        else put_until f (pool s (t + 1)) (pool s (t + 2))
      else if k =? TEXT_ESCAPED then print_escaped_text f (pool s (t + 1)) (negb (pool s (t + 2) =? 0))
      else None
  end.
End Print.

(** ** Specification: documents and what they print *)
Inductive doc :=
| DEmpty | DChar (c : Z) | DInt (n : Z) | DHex (n : Z) | DOct (n : Z)
| DStr (bytes : list Z)                (* a NUL-terminated string *)
| DSub (bytes : list Z) (next : Z)     (* a piece of a longer string; [next]: the character after the piece *)
| DCat (l : list doc) | DEsc (d : doc) (for_printf : bool).

(** The output of a document, escaping each character with [esc] (numerals are not escaped). *)
Inductive shows (esc : Z -> list Z) : doc -> list Z -> Prop :=
| sh_empty : shows esc DEmpty []
| sh_char c : shows esc (DChar c) (esc c)
| sh_int n ds : denotes 10 ds (Z.abs n) -> shows esc (DInt n) (if n <? 0 then 45 :: ds else ds)
| sh_hex n ds : denotes 16 ds (n mod 2 ^ 32) -> shows esc (DHex n) (48 :: 120 :: ds)
| sh_oct n ds : denotes 8 ds (n mod 2 ^ 32) -> shows esc (DOct n) (48 :: ds)
| sh_str l : shows esc (DStr l) (flat_map esc l)
| sh_sub l c : shows esc (DSub l c) (flat_map esc l)
| sh_cat l o : showl esc l o -> shows esc (DCat l) o
with showl (esc : Z -> list Z) : list doc -> list Z -> Prop :=
| sl_nil : showl esc [] []
| sl_cons d l a b : shows esc d a -> showl esc l b -> showl esc (d :: l) (a ++ b).
Inductive prints : doc -> list Z -> Prop :=
| pr_plain d o : shows (fun c => [c]) d o -> prints d o
| pr_esc d fp o : shows (fun c => print_escaped_char c fp) d o -> prints (DEsc d fp) o
| pr_cat l o : printl l o -> prints (DCat l) o
with printl : list doc -> list Z -> Prop :=
| pl_nil : printl [] []
| pl_cons d l a b : prints d a -> printl l b -> printl (d :: l) (a ++ b).
