(** * x86 instructions: encoder model (x86.c) and decoder specification (Intel SDM vol. 2) *)
From Coq Require Import ZArith List Lia Bool.
From Verif Require Import Base Asm AsmProof.
Import ListNotations.
Open Scope Z_scope.

(** ** Specification: instructions and their machine encoding *)
Inductive alu := Aadd | Aor | Aand | Asub | Axor | Acmp | Amov.
Inductive shft := Shl | Shr | Sar.
(** [w]: operand size in bytes.  Registers are numbered as in the manual (0 = rAX, 1 = rCX, ..., 15 = r15). *)
Inductive instr :=
| IAlu (op : alu) (w dst src : Z)            (* op r/m, r (register form) *)
| IAddImm (w dst imm : Z)                    (* ADD r/m, imm32 (sign-extended) *)
| IMovImm (w dst imm : Z)                    (* MOV r, imm *)
| IStore (w base disp src : Z)               (* MOV [base+disp], r *)
| ILoad (w dst base disp : Z)                (* MOV r, [base+disp] *)
| ILoadX (n : Z) (sg : bool) (w dst base disp : Z) (* MOVZX / MOVSX / MOVSXD r, n bytes at [base+disp] *)
| IImul (w dst src : Z)
| IIdiv (w src : Z)
| IDiv (w src : Z)
| ICdq (w : Z)
| IShift (k : shft) (w dst : Z)              (* by CL *)
| IPush (r : Z) | IPop (r : Z)
| IJmp (d : Z) | ICall (d : Z) | ICallR (r : Z) | IRet
| IJcc (cc d : Z)
| IInt (n : Z) | ISyscall.

(** Little-endian signed 32-bit field. *)
Definition u32v (a b c d : Z) : Z := a + 256 * b + 65536 * c + 16777216 * d.
Definition u32at (f : Z -> Z) (p : Z) : Z := u32v (f p) (f (p + 1)) (f (p + 2)) (f (p + 3)).
Definition s32 (z : Z) : Z := if 2147483648 <=? z then z - 4294967296 else z.
Definition s32at (f : Z -> Z) (p : Z) : Z := s32 (u32at f p).
Definition u64v (lo hi : Z) : Z := lo + 4294967296 * hi.
Definition u64at (f : Z -> Z) (p : Z) : Z := u64v (u32at f p) (u32at f (p + 4)).

(** REX byte (64-bit mode only): its presence and the bits W, R, B; X must be 0 here. *)
Record rexb := RexB { has_rex : bool; rexW : Z; rexR : Z; rexX : Z; rexBb : Z }.

(** The three fields of a ModR/M byte. *)
Definition md (m : Z) : Z := m / 64.
Definition mreg (m : Z) : Z := m / 8 mod 8.
Definition mrm (m : Z) : Z := m mod 8.

(** ModR/M memory operand with a 32-bit displacement (mod = 10): base register, displacement, bytes used after
    the opcode.  r/m = 100 announces a SIB byte; 00 100 100 there means base only, no index. *)
Definition mem_operand (f : Z -> Z) (p : Z) (rx : rexb) : option (Z * Z * Z) :=
  let m := f p in
  if md m =? 2 then
    if mrm m =? 4 then
      if (f (p + 1) =? 36) && (rexX rx =? 0) then Some (4 + 8 * rexBb rx, s32at f (p + 2), 6) else None
    else Some (mrm m + 8 * rexBb rx, s32at f (p + 1), 5)
  else None.

(** Decoding in 32-bit mode ([W = 4]) or 64-bit mode ([W = 8]) of the bytes [f 0], [f 1], ...: the instruction
    and its length; [decode] does so at an address. *)
Definition decode0 (W : Z) (f : Z -> Z) : option (instr * Z) :=
  let o16 := f 0 =? 0x66 in
  let p0 := if o16 then 1 else 0 in
  let isrex := (W =? 8) && (f p0 / 16 =? 4) in
  let rx := if isrex then RexB true (f p0 / 8 mod 2) (f p0 / 4 mod 2) (f p0 / 2 mod 2) (f p0 mod 2) else RexB false 0 0 0 0 in
  let p := if isrex then p0 + 1 else p0 in
  let w := if rexW rx =? 1 then 8 else if o16 then 2 else 4 in
  let op := f p in
  let m := f (p + 1) in
  let reg := mreg m + 8 * rexR rx in
  let rm := mrm m + 8 * rexBb rx in
  let isreg := md m =? 3 in
  let ext := mreg m in
  let ret i n := Some (i, p + n) in
  let alu_rr a := if isreg then ret (IAlu a w rm reg) 2 else None in
  let simple := negb o16 in
  if op =? 0x01 then alu_rr Aadd
  else if op =? 0x09 then alu_rr Aor
  else if op =? 0x21 then alu_rr Aand
  else if op =? 0x29 then alu_rr Asub
  else if op =? 0x31 then alu_rr Axor
  else if op =? 0x39 then alu_rr Acmp
  else if op =? 0x88 then (* MOV r/m8, r8: without REX, registers 4-7 are AH, CH, DH, BH *)
    match mem_operand f (p + 1) rx with
    | Some (b, d, n) => if o16 || (negb (has_rex rx) && (4 <=? reg)) then None else ret (IStore 1 b d reg) (1 + n)
    | None => None
    end
  else if op =? 0x89 then
    if isreg then ret (IAlu Amov w rm reg) 2
    else match mem_operand f (p + 1) rx with Some (b, d, n) => ret (IStore w b d reg) (1 + n) | None => None end
  else if op =? 0x8b then
    match mem_operand f (p + 1) rx with Some (b, d, n) => ret (ILoad w reg b d) (1 + n) | None => None end
  else if op =? 0x63 then
    if W =? 8 then match mem_operand f (p + 1) rx with Some (b, d, n) => ret (ILoadX 4 true w reg b d) (1 + n) | None => None end
    else None
  else if op =? 0x81 then
    if isreg && (ext =? 0) && simple then ret (IAddImm w rm (s32at f (p + 2))) 6 else None
  else if (0xb8 <=? op) && (op <? 0xc0) && simple then
    if w =? 8 then ret (IMovImm 8 (op - 0xb8 + 8 * rexBb rx) (u64at f (p + 1))) 9
    else ret (IMovImm 4 (op - 0xb8 + 8 * rexBb rx) (u32at f (p + 1))) 5
  else if op =? 0xf7 then
    if isreg && (ext =? 7) then ret (IIdiv w rm) 2
    else if isreg && (ext =? 6) then ret (IDiv w rm) 2 else None
  else if op =? 0x99 then ret (ICdq w) 1
  else if op =? 0xd3 then
    if isreg && (ext =? 4) then ret (IShift Shl w rm) 2
    else if isreg && (ext =? 5) then ret (IShift Shr w rm) 2
    else if isreg && (ext =? 7) then ret (IShift Sar w rm) 2 else None
  else if (0x50 <=? op) && (op <? 0x58) && simple then ret (IPush (op - 0x50 + 8 * rexBb rx)) 1
  else if (0x58 <=? op) && (op <? 0x60) && simple then ret (IPop (op - 0x58 + 8 * rexBb rx)) 1
  else if (op =? 0xe9) && simple then ret (IJmp (s32at f (p + 1))) 5
  else if (op =? 0xe8) && simple then ret (ICall (s32at f (p + 1))) 5
  else if op =? 0xff then if isreg && (ext =? 2) && simple then ret (ICallR rm) 2 else None
  else if op =? 0xc3 then ret IRet 1
  else if op =? 0xcd then ret (IInt (f (p + 1))) 2
  else if op =? 0x0f then
    let op2 := f (p + 1) in
    let m2 := f (p + 2) in
    let reg2 := mreg m2 + 8 * rexR rx in
    if op2 =? 0x05 then if W =? 8 then ret ISyscall 2 else None
    else if op2 =? 0xaf then
      if md m2 =? 3 then ret (IImul w reg2 (mrm m2 + 8 * rexBb rx)) 3 else None
    else if (0x80 <=? op2) && (op2 <? 0x90) && simple then ret (IJcc (op2 - 0x80) (s32at f (p + 2))) 6
    else
      let ldx n sg := match mem_operand f (p + 2) rx with
                      | Some (b, d, k) => ret (ILoadX n sg w reg2 b d) (2 + k) | None => None end in
      if op2 =? 0xb6 then ldx 1 false
      else if op2 =? 0xb7 then ldx 2 false
      else if op2 =? 0xbe then ldx 1 true
      else if op2 =? 0xbf then ldx 2 true
      else None
  else None.
(** An instruction has at most 15 bytes. *)
Definition window (f : Z -> Z) (pc : Z) : list Z := map (fun k => f (pc + Z.of_nat k)) (seq 0 15).
Definition byte_of (l : list Z) (k : Z) : Z := nth (Z.to_nat k) l 0.
Definition decode (W : Z) (f : Z -> Z) (pc : Z) : option (instr * Z) := decode0 W (byte_of (window f pc)).

(** ** Model of x86.c.  Every function emits bytes or uses a label: a list of buffer operations ([Asm.aop]). *)
Definition B (l : list Z) : list aop := map OByte l.
(** exe.c:29-37: immediates; the bytes are those of C30. *)
Definition imm32 (n : Z) : list aop := B [n; Z.shiftr n 8; Z.shiftr n 16; Z.shiftr n 24].
Definition imm64 (n : Z) : list aop := imm32 n ++ imm32 (Z.shiftr n 31).
Definition b2z (b : bool) : Z := if b then 1 else 0.
(** x86.c:55-67 *)
Definition rex_prefix (W reg1 reg2 : Z) : list aop :=
  if W =? 8 then B [0x48 + 0x04 * b2z (8 <=? reg1) + 0x01 * b2z (8 <=? reg2)] else [].
(** x86.c:69-95 *)
Definition mod_rm (reg1 reg2 : Z) : list aop := B [0xc0 + Z.shiftl (Z.land reg1 7) 3 + Z.land reg2 7].
(** x86.c:100-108 *)
Definition op_reg_reg (W opcode dst src reg_width : Z) : list aop :=
  (if reg_width =? 2 then B [0x66] else []) ++ (if reg_width =? 8 then rex_prefix W src dst else []) ++
  B [opcode] ++ mod_rm src dst.
(** x86.c:110-115 *)
Definition op_reg_slash_digit (W opcode digit reg : Z) : list aop :=
  rex_prefix W 0 reg ++ B [opcode] ++ mod_rm digit reg.
(** x86.c:139-194 *)
Definition add_reg_reg W dst src := op_reg_reg W 0x01 dst src W.
Definition or_reg_reg W dst src := op_reg_reg W 0x09 dst src W.
Definition and_reg_reg W dst src := op_reg_reg W 0x21 dst src W.
Definition sub_reg_reg W dst src := op_reg_reg W 0x29 dst src W.
Definition xor_reg_reg W dst src := op_reg_reg W 0x31 dst src W.
Definition cmp_reg_reg W dst src := op_reg_reg W 0x39 dst src W.
Definition mov_reg_reg W dst src := op_reg_reg W 0x89 dst src W.
(** x86.c:196-210 *)
Definition mov_reg_imm (W dst imm : Z) : list aop :=
  rex_prefix W 0 dst ++ B [0xb8 + Z.land dst 7] ++ (if W =? 8 then imm64 imm else imm32 imm).
(** x86.c:212-229; the value is given by its two 32-bit halves (exe.c:40-57, see C30). *)
Definition mov_reg_large_imm (W dst lo hi : Z) : list aop :=
  rex_prefix W 0 dst ++ B [0xb8 + Z.land dst 7] ++ imm32 lo ++ (if W =? 8 then imm32 hi else []).
(** x86.c:231-240 *)
Definition add_reg_imm (W dst imm : Z) : list aop := rex_prefix W 0 dst ++ B [0x81] ++ mod_rm 0 dst ++ imm32 imm.
(** x86.c:242-251 *)
Definition add_reg_lbl (W dst lbl : Z) : list aop := rex_prefix W 0 dst ++ B [0x81] ++ mod_rm 0 dst ++ [OUse lbl].
Definition SP := 4.  Definition R12 := 12.
(** x86.c:253-266 *)
Definition mov_memory (W op reg base offset reg_width : Z) : list aop :=
  (if reg_width =? 2 then B [0x66] else []) ++ (if reg_width =? 8 then rex_prefix W reg base else []) ++
  B [op; 0x80 + Z.land reg 7 * 8 + Z.land base 7] ++
  (if (base =? SP) || (base =? R12) then B [0x24] else []) ++ imm32 offset.
(** x86.c:268-283 *)
Definition mov_memory_extend (W op reg base offset : Z) (include_0f : bool) : list aop :=
  rex_prefix W reg base ++ (if include_0f then B [0x0f] else []) ++
  B [op; 0x80 + Z.land reg 7 * 8 + Z.land base 7] ++
  (if (base =? SP) || (base =? R12) then B [0x24] else []) ++ imm32 offset.
(** x86.c:285-380 *)
Definition mov_mem8_reg W base offset src := mov_memory W 0x88 src base offset 1.
Definition mov_mem16_reg W base offset src := mov_memory W 0x89 src base offset 2.
Definition mov_mem32_reg W base offset src := mov_memory W 0x89 src base offset 4.
Definition mov_mem64_reg W base offset src := mov_memory W 0x89 src base offset 8.
Definition mov_reg_mem8 W dst base offset := mov_memory_extend W 0xb6 dst base offset true.
Definition mov_reg_mem16 W dst base offset := mov_memory_extend W 0xb7 dst base offset true.
Definition mov_reg_mem32 W dst base offset := mov_memory W 0x8b dst base offset 4.
Definition mov_reg_mem8_sign_ext W dst base offset := mov_memory_extend W 0xbe dst base offset true.
Definition mov_reg_mem16_sign_ext W dst base offset := mov_memory_extend W 0xbf dst base offset true.
Definition mov_reg_mem32_sign_ext W dst base offset := mov_memory_extend W 0x63 dst base offset false.
Definition mov_reg_mem64 W dst base offset := mov_memory W 0x8b dst base offset 8.
(** exe.c:114-120 *)
Definition mov_mem_reg W base offset src := if W =? 8 then mov_mem64_reg W base offset src else mov_mem32_reg W base offset src.
Definition mov_reg_mem W dst base offset := if W =? 8 then mov_reg_mem64 W dst base offset else mov_reg_mem32 W dst base offset.
(** x86.c:382-398 *)
Definition imul_reg_reg (W dst src : Z) : list aop := rex_prefix W dst src ++ B [0x0f; 0xaf] ++ mod_rm dst src.
Definition mul_reg_reg := imul_reg_reg.
(** x86.c:400-424 *)
Definition idiv_reg W src := op_reg_slash_digit W 0xf7 7 src.
Definition div_reg W src := op_reg_slash_digit W 0xf7 6 src.
Definition cdq_cqo (W : Z) : list aop := rex_prefix W 0 0 ++ B [0x99].
Definition AX := 0. Definition CX := 1. Definition DX := 2. Definition BX := 3. Definition BP := 5.
Definition SI := 6. Definition DI := 7. Definition R8 := 8. Definition R9 := 9. Definition R10 := 10.
(** x86.c:426-480 *)
Definition idiv_reg_reg W dst src := mov_reg_reg W AX dst ++ cdq_cqo W ++ idiv_reg W src ++ mov_reg_reg W dst AX.
Definition irem_reg_reg W dst src := mov_reg_reg W AX dst ++ cdq_cqo W ++ idiv_reg W src ++ mov_reg_reg W dst DX.
Definition div_reg_reg W dst src := mov_reg_reg W AX dst ++ mov_reg_imm W DX 0 ++ div_reg W src ++ mov_reg_reg W dst AX.
Definition rem_reg_reg W dst src := mov_reg_reg W AX dst ++ mov_reg_imm W DX 0 ++ div_reg W src ++ mov_reg_reg W dst DX.
(** x86.c:482-541 *)
Definition s_l_reg_reg W dst src := mov_reg_reg W CX src ++ op_reg_slash_digit W 0xd3 4 dst.
Definition sar_reg_reg W dst src := mov_reg_reg W CX src ++ op_reg_slash_digit W 0xd3 7 dst.
Definition shr_reg_reg W dst src := mov_reg_reg W CX src ++ op_reg_slash_digit W 0xd3 5 dst.
(** x86.c:543-557 *)
Definition push_reg (src : Z) : list aop := B [0x50 + src].
Definition pop_reg (dst : Z) : list aop := B [0x58 + dst].
(** x86.c:559-601 *)
Definition jump (lbl : Z) : list aop := B [0xe9] ++ [OUse lbl].
Definition call (lbl : Z) : list aop := B [0xe8] ++ [OUse lbl].
Definition call_reg (reg : Z) : list aop := B [0xff] ++ mod_rm 2 reg.
Definition ret : list aop := B [0xc3].
(** x86.c:605-614 *)
Definition EQ := 0x4. Definition NE := 0x5. Definition LT := 0xc. Definition LT_U := 0x2. Definition GE := 0xd.
Definition GE_U := 0x3. Definition LE := 0xe. Definition LE_U := 0x6. Definition GT := 0xf. Definition GT_U := 0x7.
(** x86.c:616-637, 783-789 *)
Definition jump_cond (cond lbl : Z) : list aop := B [0x0f; 0x80 + cond] ++ [OUse lbl].
Definition jump_cond_reg_reg (W cond lbl reg1 reg2 : Z) : list aop := cmp_reg_reg W reg1 reg2 ++ jump_cond cond lbl.
Definition int_i8 (n : Z) : list aop := B [0xcd; n].
Definition syscall_ : list aop := B [0x0f; 0x05].
(** x86.c:671-684 [mov_reg_lbl]; [lbl_for_pc] is the label it allocates. *)
Definition mov_reg_lbl (W reg lbl lbl_for_pc : Z) : list aop :=
  call lbl_for_pc ++ [ODef lbl_for_pc] ++ pop_reg reg ++ add_reg_lbl W reg lbl ++ add_reg_imm W reg (if W =? 8 then 8 else 7).
(** exe.c:354-356 *)
Definition grow_stack_ops (W words : Z) : list aop := add_reg_imm W SP (- words * W).
