(* The heap of generated shell scripts: _malloc, _free, initialize, defarr and
   the string unpacker (sh-runtime.c 278-352, 488-508).  Cell a is the shell
   variable _a; None is an unset variable. *)
From Coq Require Import ZArith List Bool Lia.
From Verif Require Import Base.
Import ListNotations.
Open Scope Z_scope.

Record heap := mkheap { cell : Z -> option Z; ALLOC : Z }.
Definition put (h : heap) (a v : Z) : heap :=
  mkheap (fun b => if Z.eqb b a then Some v else cell h b) (ALLOC h).
Definition unset (h : heap) (a : Z) : heap :=
  mkheap (fun b => if Z.eqb b a then None else cell h b) (ALLOC h).
(* Script start: "__ALLOC=1" (sh-runtime.c 279). *)
Definition heap0 : heap := mkheap (fun _ => None) 1.

(* [tag] = RT_FREE_UNSETS_VARS, the default (pnut.c 103-105). *)
Section Heap.
Variable tag : bool.

(* sh-runtime.c 280-291 _malloc *)
Definition rt_malloc (h : heap) (size : Z) : Z * heap :=
  if tag then
    let h1 := put h (ALLOC h) size in
    (ALLOC h + 1, mkheap (cell h1) (ALLOC h + (size + 1)))
  else (ALLOC h, mkheap (cell h) (ALLOC h + size)).

(* sh-runtime.c 345-348: while [ $__ptr -lt $__end ]; do unset "_$__ptr" ... *)
Fixpoint unset_from (k : nat) (a : Z) (h : heap) : heap :=
  match k with O => h | S k => unset_from k (a + 1) (unset h a) end.
(* sh-runtime.c 340-352 _free; reading an unset cell stops the script (set -u). *)
Definition rt_free (h : heap) (p : Z) : option heap :=
  if tag then
    match cell h (p - 1) with
    | Some size => Some (unset_from (Z.to_nat size) (p - 1) h)
    | None => None
    end
  else Some h.

Fixpoint put_list (h : heap) (a : Z) (vs : list Z) : heap :=
  match vs with [] => h | v :: t => put_list (put h a v) (a + 1) t end.
Fixpoint zeros (h : heap) (a : Z) (k : nat) : heap :=
  match k with O => h | S k => zeros (put h a 0) (a + 1) k end.

(* sh-runtime.c 297-311 initialize var len elements.. *)
Definition rt_initialize (h : heap) (p len : Z) (vs : list Z) : heap :=
  let n := Z.of_nat (length vs) in
  zeros (put_list h p vs) (p + n) (Z.to_nat (len - n)).
(* sh-runtime.c 314-331 defarr (the initialising variant; the default build calls
   a function it does not define, "initialize_memory", see DESIGN.md). *)
Definition rt_defarr (h : heap) (len : Z) (vs : list Z) : Z * heap :=
  let (p, h1) := rt_malloc h len in
  (p, match vs with [] => h1 | _ => rt_initialize h1 p len vs end).

(* sh-runtime.c 457-486 unpack_escaped_string, after the characters have been
   decoded to [bytes] (ShStr.v); [size] is the declared size or the length of
   the escaped text plus 1.  The last loop runs while __ptr <= __end. *)
Definition rt_defstr (h : heap) (bytes : list Z) (size : Z) : Z * heap :=
  let (p, h1) := rt_malloc h size in
  let n := Z.of_nat (length bytes) in
  (p, zeros (put_list h1 p bytes) (p + n) (Z.to_nat (size - n + 1))).
End Heap.
