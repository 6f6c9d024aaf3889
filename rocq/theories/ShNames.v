(** * The shell names the shell back end gives to C objects (sh.c)

    Model of format_special_var, struct_member_var, struct_sizeof_var, global_var, env_var,
    function_name, fresh_string_ident and assert_var_decl_is_safe (sh.c:470-625), of character_ident
    (sh.c:842, modelled in ShExpr), and of the variables and functions of the shell runtime
    (sh-runtime.c, sh.c:701, 2538-2545; the union over all build options). *)
From Coq Require Import ZArith List Lia Bool String.
From Verif Require Import Base ShArith ShExpr ShCSem.
Import ListNotations.
Open Scope Z_scope.
Local Notation length := List.length.

Definition eqn (a b : name) : bool := if list_eq_dec Z.eq_dec a b then true else false.

(** ** The naming functions *)
Definition global_var (x : name) : name := 95 :: x.                                    (* sh.c:509 *)
Definition function_name (x : name) : name := 95 :: x.                                 (* sh.c:534 *)
Definition struct_member_var (x : name) : name := zs "__" ++ x.                        (* sh.c:501 *)
Definition struct_sizeof_var (x : name) : name := zs "__sizeof__" ++ x.                (* sh.c:505 *)
Definition local_var (x : name) : name := if eqn x (zs "argv") then zs "argv_" else x. (* sh.c:516-521 *)
(* env_var of an identifier; [isloc] = cgc_lookup_var in the local environment.  sh.c:513-530 *)
Definition env_var (isloc : name -> bool) (x : name) : name := if isloc x then local_var x else global_var x.
Definition internal_var (n : Z) : name := zs "__t" ++ decimal n.                       (* IDENTIFIER_INTERNAL, sh.c:475 *)
Definition string_var (n : Z) : name := zs "__str_" ++ decimal n.                      (* IDENTIFIER_STRING, sh.c:477 *)
Definition empty_var : name := zs "__".                                                (* IDENTIFIER_EMPTY, sh.c:493 *)
Definition cell_var (a : Z) : name := zs "_" ++ decimal a.                             (* a memory cell *)
Definition slot_var (n : Z) : name := zs "__" ++ decimal n.                            (* the stack of let, sh-runtime.c:90 *)

(* assert_var_decl_is_safe, the part about the name.  sh.c:585-605 *)
Definition decl_is_safe (x : name) (local : bool) : bool :=
  match x with
  | 95 :: _ => false
  | [_; 95] => false
  | _ => negb (local && (eqn x (zs "argv_") || eqn x (zs "IFS")))
  end.

(** ** The names of the runtime *)
Definition c2i_chars : list Z := zs "0123456789abcdefghijklmnopqrstuvwxyzABCDEFGHIJKLMNOPQRSTUVWXYZ".
Definition runtime_vars : list name := map zs
  ["__ALLOC"; "__SP"; "__addr"; "__argc"; "__argv"; "__argv_ptr"; "__argc_for_main"; "__argv_for_main"; "__buf"; "__buffer"; "__buffer_fd";
   "__buflen"; "__buflen_fd"; "__byte"; "__c"; "__char"; "__code"; "__continue"; "__count"; "__cursor"; "__cursor_fd";
   "__end"; "__ends_with_eof"; "__fd"; "__fgetc_buf"; "__fgetc_buf16"; "__file"; "__flags"; "__fmt_ptr"; "__head";
   "__head_char"; "__i"; "__int"; "__len"; "__mod"; "__mod_start"; "__precision"; "__ptr"; "__res"; "__ret"; "__size";
   "__state_fd"; "__stdin_buf"; "__stdin_buf16"; "__stdin_buf256"; "__stdin_end"; "__stdin_line_ending"; "__str";
   "__tail"; "__temp"; "__temp_buf"; "__tmp"; "__us_buf16"; "__us_buf256"; "__width"]%string
  ++ map (fun c => zs "__c2i_" ++ [c]) c2i_chars.
(* one variable for each file descriptor, sh-runtime.c:706-760 *)
Definition fd_prefixes : list name := map zs ["__buffer_fd"; "__buflen_fd"; "__cursor_fd"; "__state_fd"]%string.
(* the variables POSIX gives a meaning (2.5.3) *)
Definition shell_vars : list name := map zs
  ["ENV"; "HOME"; "IFS"; "LANG"; "LC_ALL"; "LC_COLLATE"; "LC_CTYPE"; "LC_MESSAGES"; "LINENO"; "NLSPATH"; "OPTARG"; "OPTIND";
   "PATH"; "PPID"; "PS1"; "PS2"; "PS4"; "PWD"]%string.
(* functions of the runtime whose names have the form of a C function's *)
Definition runtime_funs : list name := map zs
  ["_malloc"; "_free"; "_exit"; "_putchar"; "_getchar"; "_put_pstr"; "_printf"; "_open"; "_read"; "_write"; "_close";
   "_fopen"; "_fclose"; "_fgetc"]%string.
Definition runtime_helpers : list name := map zs
  ["let"; "endlet"; "char_to_int"; "initialize"; "initialize_memory"; "defarr"; "defglo"; "defstr"; "unpack_string";
   "make_argv"; "next_sub_buffer"; "unpack_escaped_string"; "read_int"; "pad"; "printf_invalid_format_error";
   "printf_reset"; "unpack_line"; "refill_buffer"; "read_byte"]%string.

(** ** Objects that live in shell variables *)
Inductive obj :=
| OGlobal (x : name)                 (* a global variable or an enumeration constant *)
| OLocal (x : name)                  (* a parameter or local variable of the current function *)
| OMember (s : nat) (x : name)       (* the offset of member x of structure number s *)
| OSizeof (x : name)                 (* the size of structure x *)
| OTemp (n : Z) | OString (n : Z) | OChar (c : Z) | OEmpty
| OCell (a : Z) | OSlot (n : Z)
| ORuntime (x : name) | OFd (p : name) (n : Z) | OShell (x : name).
Definition name_of (o : obj) : name :=
  match o with
  | OGlobal x => global_var x
  | OLocal x => local_var x
  | OMember _ x => struct_member_var x
  | OSizeof x => struct_sizeof_var x
  | OTemp n => internal_var n
  | OString n => string_var n
  | OChar c => character_ident c
  | OEmpty => empty_var
  | OCell a => cell_var a
  | OSlot n => slot_var n
  | ORuntime x => x
  | OFd p n => p ++ decimal n
  | OShell x => x
  end.

(** ** String constants: fresh_string_ident, sh.c:549.  [tag s] is heap[probe + 3] of the string [s] *)
Record sst := { counter : Z; tag : nat -> Z }.
Definition fresh_string_ident (s : nat) (st : sst) : Z * sst :=
  if tag st s =? 0
  then (counter st, {| counter := counter st + 1; tag := fun x => if Nat.eqb x s then counter st else tag st x |})
  else (tag st s, st).
(* the numbers given to a sequence of uses of strings *)
Fixpoint numbers (l : list nat) (st : sst) : list (nat * Z) :=
  match l with
  | [] => []
  | s :: l => let (n, st1) := fresh_string_ident s st in (s, n) :: numbers l st1
  end.
