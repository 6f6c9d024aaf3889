(** * Executable files: model of exe.c:60-78, elf.c and mach-o.c *)
From Coq Require Import ZArith List Lia Bool.
From Verif Require Import Base Asm.
Import ListNotations.
Open Scope Z_scope.

(** exe.c:61-77 [write_i8], [write_2_i8], [write_4_i8], [write_i32_le]: the bytes written to the file. *)
Definition write_i8 (n : Z) : list Z := [Z.land n 255].
Definition write_2_i8 (a b : Z) : list Z := write_i8 a ++ write_i8 b.
Definition write_4_i8 (a b c d : Z) : list Z := write_2_i8 a b ++ write_2_i8 c d.
Definition write_i32_le (n : Z) : list Z := write_4_i8 n (Z.shiftr n 8) (Z.shiftr n 16) (Z.shiftr n 24).

(** elf.c:8-25 [write_elf_e_header], i386. *)
Definition e_header32 : list Z :=
  write_4_i8 127 69 76 70 ++ write_4_i8 1 1 1 0 ++ write_4_i8 0 0 0 0 ++ write_4_i8 0 0 0 0 ++
  write_2_i8 2 0 ++ write_2_i8 3 0 ++ write_4_i8 1 0 0 0 ++ write_4_i8 84 128 4 8 ++
  write_4_i8 52 0 0 0 ++ write_4_i8 0 0 0 0 ++ write_4_i8 0 0 0 0 ++
  write_2_i8 52 0 ++ write_2_i8 32 0 ++ write_2_i8 1 0 ++ write_2_i8 0 0 ++ write_2_i8 0 0 ++ write_2_i8 0 0.
(** elf.c:27-36 [write_elf_p_header], i386. *)
Definition p_header32 (code_alloc : Z) : list Z :=
  write_i32_le 1 ++ write_i32_le 0 ++ write_i32_le 134512640 ++ write_i32_le 134512640 ++
  write_i32_le (84 + code_alloc) ++ write_i32_le (84 + code_alloc) ++ write_i32_le 5 ++ write_i32_le 4096.
(** elf.c:51-72 [write_elf_e_header], x86-64. *)
Definition e_header64 : list Z :=
  write_4_i8 127 69 76 70 ++ write_4_i8 2 1 1 0 ++ write_4_i8 0 0 0 0 ++ write_4_i8 0 0 0 0 ++
  write_2_i8 2 0 ++ write_2_i8 62 0 ++ write_4_i8 1 0 0 0 ++
  write_4_i8 120 0 0 64 ++ write_4_i8 0 0 0 0 ++ write_4_i8 64 0 0 0 ++ write_4_i8 0 0 0 0 ++
  write_4_i8 0 0 0 0 ++ write_4_i8 0 0 0 0 ++ write_4_i8 0 0 0 0 ++
  write_2_i8 64 0 ++ write_2_i8 56 0 ++ write_2_i8 1 0 ++ write_2_i8 0 0 ++ write_2_i8 0 0 ++ write_2_i8 0 0.
(** elf.c:74-89 [write_elf_p_header], x86-64. *)
Definition p_header64 (code_alloc : Z) : list Z :=
  write_i32_le 1 ++ write_i32_le 5 ++ write_i32_le 0 ++ write_i32_le 0 ++
  write_i32_le 1073741824 ++ write_i32_le 0 ++ write_i32_le 1073741824 ++ write_i32_le 0 ++
  write_i32_le (120 + code_alloc) ++ write_i32_le 0 ++ write_i32_le (120 + code_alloc) ++ write_i32_le 0 ++
  write_i32_le 2097152 ++ write_i32_le 0.

(** elf.c:93-103, mach-o.c: the loop writing the code buffer; [code] lists its cells. *)
Definition write_code (code : list Z) : list Z := flat_map write_i8 code.
Definition elf_file (w64 : bool) (code : list Z) : list Z :=
  let n := Z.of_nat (length code) in
  (if w64 then e_header64 ++ p_header64 n else e_header32 ++ p_header32 n) ++ write_code code.

(** mach-o.c: header, page zero, text segment, thread state; the trailing padding is modelled too. *)
Definition zeros4 (n : nat) : list Z := repeat 0 (4 * n).
Definition mach_header : list Z :=
  write_4_i8 207 250 237 254 ++ write_4_i8 7 0 0 1 ++ write_4_i8 3 0 0 128 ++ write_4_i8 2 0 0 0 ++
  write_4_i8 3 0 0 0 ++ write_4_i8 72 1 0 0 ++ write_4_i8 1 0 0 0 ++ write_4_i8 0 0 0 0.
Definition mach_pagezero : list Z :=
  write_4_i8 25 0 0 0 ++ write_4_i8 72 0 0 0 ++ write_4_i8 95 95 80 65 ++ write_4_i8 71 69 90 69 ++
  write_4_i8 82 79 0 0 ++ zeros4 1 ++ zeros4 2 ++ zeros4 1 ++ write_4_i8 1 0 0 0 ++ zeros4 4 ++ zeros4 4.
Definition mach_text (code_alloc : Z) : list Z :=
  write_4_i8 25 0 0 0 ++ write_4_i8 72 0 0 0 ++ write_4_i8 95 95 84 69 ++ write_4_i8 88 84 0 0 ++ zeros4 2 ++
  write_i32_le 0 ++ write_i32_le 1 ++ write_i32_le code_alloc ++ write_i32_le 0 ++
  write_i32_le 0 ++ write_i32_le 0 ++ write_i32_le code_alloc ++ write_i32_le 0 ++
  write_4_i8 7 0 0 0 ++ write_4_i8 5 0 0 0 ++ zeros4 2.
Definition mach_thread : list Z :=
  write_4_i8 5 0 0 0 ++ write_4_i8 184 0 0 0 ++ write_4_i8 4 0 0 0 ++ write_4_i8 42 0 0 0 ++
  zeros4 32 ++ write_4_i8 104 1 0 0 ++ write_4_i8 1 0 0 0 ++ zeros4 8.
Definition macho_file (code : list Z) : list Z :=
  let n := length code in
  mach_header ++ mach_pagezero ++ mach_text (Z.of_nat n) ++ mach_thread ++ write_code code ++
  repeat 0 (4096 - (56 + n)).

(** ** Specification: reading the fields of an ELF file (System V gABI) *)
Definition byte_at (f : list Z) (i : nat) : Z := nth i f 0.
Definition u16 (f : list Z) (i : nat) : Z := byte_at f i + 256 * byte_at f (i + 1).
Definition u32f (f : list Z) (i : nat) : Z := u16 f i + 65536 * u16 f (i + 2).
Definition u64f (f : list Z) (i : nat) : Z := u32f f i + 4294967296 * u32f f (i + 4).

Record elf := Elf {
  cls : Z; data : Z; etype : Z; machine : Z; entry : Z; phoff : Z; ehsize : Z; phentsize : Z; phnum : Z;
  ptype : Z; pflags : Z; poffset : Z; pvaddr : Z; pfilesz : Z; pmemsz : Z; palign : Z }.

Definition read_elf32 (f : list Z) : elf :=
  let ph := Z.to_nat (u32f f 28) in
  Elf (byte_at f 4) (byte_at f 5) (u16 f 16) (u16 f 18) (u32f f 24) (u32f f 28) (u16 f 40) (u16 f 42) (u16 f 44)
      (u32f f ph) (u32f f (ph + 24)) (u32f f (ph + 4)) (u32f f (ph + 8)) (u32f f (ph + 16)) (u32f f (ph + 20)) (u32f f (ph + 28)).
Definition read_elf64 (f : list Z) : elf :=
  let ph := Z.to_nat (u64f f 32) in
  Elf (byte_at f 4) (byte_at f 5) (u16 f 16) (u16 f 18) (u64f f 24) (u64f f 32) (u16 f 52) (u16 f 54) (u16 f 56)
      (u32f f ph) (u32f f (ph + 4)) (u64f f (ph + 8)) (u64f f (ph + 16)) (u64f f (ph + 32)) (u64f f (ph + 40)) (u64f f (ph + 48)).

(** A loadable executable: the one segment is readable and executable, holds the whole file, is mapped at a
    congruent address, and the entry point is the address at which [code] starts in memory. *)
Definition loads (w64 : bool) (e : elf) (f code : list Z) : Prop :=
  firstn 4 f = [127; 69; 76; 70] /\ cls e = (if w64 then 2 else 1) /\ data e = 1 /\
  etype e = 2 /\ machine e = (if w64 then 62 else 3) /\
  ehsize e = (if w64 then 64 else 52) /\ phoff e = ehsize e /\ phentsize e = (if w64 then 56 else 32) /\ phnum e = 1 /\
  ptype e = 1 /\ pflags e = 5 /\ poffset e = 0 /\ pvaddr e mod palign e = poffset e mod palign e /\
  pfilesz e = Z.of_nat (length f) /\ pmemsz e = pfilesz e /\
  (let off := entry e - pvaddr e + poffset e in
   off = ehsize e + phentsize e /\ skipn (Z.to_nat off) f = code).
