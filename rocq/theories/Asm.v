(** * Code buffer and labels: model of exe.c:7-58, 354-356, 405-535 *)
From Coq Require Import ZArith List Lia Bool.
From Verif Require Import Base.
Import ListNotations.
Open Scope Z_scope.

(** exe.c:7-9, 411-436: the code buffer, the addresses of generic and goto labels ([> 0]: last use to patch,
    [< 0]: minus the label's address, [0]: neither used nor defined), the frame sizes of the goto labels, and
    the current frame size. *)
Record ast_st := AS { code : Z -> Z; ca : Z; gl : Z -> Z; tl : Z -> Z; tfs : Z -> Z; cfs : Z }.
Definition MAX_CODE_SIZE := 500000.

Definition with_code (s : ast_st) (c : Z -> Z) (n : Z) : ast_st := AS c n (gl s) (tl s) (tfs s) (cfs s).

(** exe.c:11-17 [emit_i8].  [None]: fatal error. *)
Definition emit_i8 (a : Z) (s : ast_st) : option ast_st :=
  if MAX_CODE_SIZE <=? ca s then None
  else Some (with_code s (upd (code s) (ca s) (Z.land a 255)) (ca s + 1)).

Definition bind {A B} (o : option A) (f : A -> option B) : option B :=
  match o with Some a => f a | None => None end.

(** exe.c:19-22, 24-27. *)
Definition emit_2_i8 (a b : Z) (s : ast_st) : option ast_st := bind (emit_i8 a s) (emit_i8 b).
Definition emit_4_i8 (a b c d : Z) (s : ast_st) : option ast_st := bind (emit_2_i8 a b s) (emit_2_i8 c d).
(** exe.c:29-31 [emit_i32_le]. *)
Definition emit_i32_le (n : Z) : ast_st -> option ast_st :=
  emit_4_i8 n (Z.shiftr n 8) (Z.shiftr n 16) (Z.shiftr n 24).
(** exe.c:33-37 [emit_i64_le]. *)
Definition emit_i64_le (n : Z) (s : ast_st) : option ast_st :=
  bind (emit_i32_le n s) (emit_i32_le (Z.shiftr n 31)).
(** exe.c:40-57, x86-64 only; [hp] is the compiler's heap, where a literal too large for an int is kept. *)
Definition emit_i32_le_large_imm (hp : Z -> Z) (imm : Z) (s : ast_st) : option ast_st :=
  if imm <=? 0 then emit_i32_le (- imm) s
  else if negb (hp (imm + 1) =? 0) then None else emit_i32_le (hp imm) s.
Definition emit_i64_le_large_imm (hp : Z -> Z) (imm : Z) (s : ast_st) : option ast_st :=
  if imm <=? 0 then emit_i64_le (- imm) s
  else bind (emit_i32_le (hp imm) s) (emit_i32_le (hp (imm + 1))).

(** exe.c:431-448 [use_label]. *)
Definition use_label (l : Z) (s : ast_st) : option ast_st :=
  let addr := gl s l in
  if addr <? 0 then emit_i32_le (- addr - (ca s + 4)) s
  else bind (emit_i32_le 0 s) (fun s1 =>
    Some (AS (upd (code s1) (ca s1 - 1) addr) (ca s1) (upd (gl s1) l (ca s1)) (tl s1) (tfs s1) (cfs s1))).

(** exe.c:450-473 [def_label]: the patch loop, then the definition. *)
Fixpoint patch_loop (fuel : nat) (label_addr addr : Z) (s : ast_st) : option ast_st :=
  if addr =? 0 then Some s
  else match fuel with
  | O => None
  | S f =>
      let next := code s (addr - 1) in
      bind (emit_i32_le (label_addr - addr) (with_code s (code s) (addr - 4))) (patch_loop f label_addr next)
  end.
Definition def_label (l : Z) (s : ast_st) : option ast_st :=
  let addr := gl s l in
  let label_addr := ca s in
  if addr <? 0 then None
  else bind (patch_loop (Z.to_nat addr) label_addr addr
               (AS (code s) (ca s) (upd (gl s) l (- label_addr)) (tl s) (tfs s) (cfs s)))
            (fun s1 => Some (with_code s1 (code s1) label_addr)).

(** x86.c [add_reg_imm] applied to SP, and [jump_rel]; exe.c:354 [grow_stack]. *)
Definition add_sp_imm (W imm : Z) (s : ast_st) : option ast_st :=
  bind (if W =? 8 then emit_i8 72 s else Some s) (fun s =>
  bind (emit_2_i8 129 196 s) (emit_i32_le imm)).
Definition grow_stack (W words : Z) : ast_st -> option ast_st := add_sp_imm W (- words * W).
Definition jump_rel (n : Z) (s : ast_st) : option ast_st := bind (emit_i8 233 s) (emit_i32_le n).

(** exe.c:478-504 [jump_to_goto_label]. *)
Definition jump_to_goto_label (W l : Z) (s : ast_st) : option ast_st :=
  let addr := tl s l in
  if addr <? 0 then
    bind (grow_stack W (tfs s l - cfs s) s) (fun s1 =>
    bind (jump_rel 0 s1) (fun s2 =>
    jump_rel (- addr - ca s2) (with_code s2 (code s2) (ca s1))))
  else
    let start := ca s in
    bind (grow_stack W 0 s) (fun s1 =>
    bind (jump_rel 0 s1) (fun s2 =>
    let c1 := upd (code s2) (ca s2 - 1) addr in
    let c2 := upd c1 (ca s2 - 2) (cfs s2) in
    let c3 := upd c2 (ca s2 - 3) start in
    Some (AS c3 (ca s2) (gl s2) (upd (tl s2) l (ca s2)) (tfs s2) (cfs s2)))).

(** exe.c:506-535 [def_goto_label]. *)
Fixpoint gpatch_loop (fuel : nat) (W label_addr addr : Z) (s : ast_st) : option ast_st :=
  if addr =? 0 then Some s
  else match fuel with
  | O => None
  | S f =>
      let next := code s (addr - 1) in
      let goto_fs := code s (addr - 2) in
      bind (grow_stack W (cfs s - goto_fs) (with_code s (code s) (code s (addr - 3)))) (fun s1 =>
      bind (jump_rel 0 s1) (fun s2 =>
      bind (jump_rel (label_addr - ca s2) (with_code s2 (code s2) (ca s1))) (gpatch_loop f W label_addr next)))
  end.
Definition def_goto_label (W l : Z) (s : ast_st) : option ast_st :=
  let addr := tl s l in
  let label_addr := ca s in
  if addr <? 0 then None
  else bind (gpatch_loop (Z.to_nat addr) W label_addr addr
               (AS (code s) (ca s) (gl s) (upd (tl s) l (- label_addr)) (upd (tfs s) l (cfs s)) (cfs s)))
            (fun s1 => Some (with_code s1 (code s1) label_addr)).

(** What the code generator does to the buffer: a history of these operations. *)
Inductive aop :=
| OByte (b : Z) | OUse (l : Z) | ODef (l : Z)
| OGoto (l : Z) | ODefGoto (l : Z) | OFrame (n : Z). (* cgc_fs = n *)

Definition do_op (W : Z) (s : ast_st) (o : aop) : option ast_st :=
  match o with
  | OByte b => emit_i8 b s
  | OUse l => use_label l s
  | ODef l => def_label l s
  | OGoto l => jump_to_goto_label W l s
  | ODefGoto l => def_goto_label W l s
  | OFrame n => Some (AS (code s) (ca s) (gl s) (tl s) (tfs s) n)
  end.
Fixpoint do_ops (W : Z) (s : ast_st) (l : list aop) : option ast_st :=
  match l with [] => Some s | o :: r => bind (do_op W s o) (fun s1 => do_ops W s1 r) end.
Definition as0 : ast_st := AS (fun _ => 0) 0 (fun _ => 0) (fun _ => 0) (fun _ => 0) 0.

(** ** Specification: a two-pass assembler *)
(** Four bytes, least significant first. *)
Definition le32 (z : Z) : list Z := [z mod 256; (z / 256) mod 256; (z / 65536) mod 256; (z / 16777216) mod 256].

(** A goto adjusts the stack pointer and jumps: (REX.W) 81 /0 SP imm32; E9 rel32. *)
Definition goto_size (W : Z) : Z := if W =? 8 then 12 else 11.
Definition op_size (W : Z) (o : aop) : Z :=
  match o with OByte _ => 1 | OUse _ => 4 | OGoto _ => goto_size W | ODef _ | ODefGoto _ | OFrame _ => 0 end.
Fixpoint ops_size (W : Z) (l : list aop) : Z :=
  match l with [] => 0 | o :: r => op_size W o + ops_size W r end.

Definition frame_after (fs : Z) (o : aop) : Z := match o with OFrame n => n | _ => fs end.

(** First pass: the address of a label; for a goto label also its frame size. *)
Fixpoint label_addr (W pos : Z) (l : list aop) (x : Z) : option Z :=
  match l with
  | [] => None
  | o :: r => match o with
              | ODef y => if x =? y then Some pos else label_addr W pos r x
              | _ => label_addr W (pos + op_size W o) r x
              end
  end.
Fixpoint goto_addr (W pos fs : Z) (l : list aop) (x : Z) : option (Z * Z) :=
  match l with
  | [] => None
  | o :: r => match o with
              | ODefGoto y => if x =? y then Some (pos, fs) else goto_addr W pos fs r x
              | _ => goto_addr W (pos + op_size W o) (frame_after fs o) r x
              end
  end.

Definition goto_bytes (W : Z) (grow dist : Z) : list Z :=
  (if W =? 8 then [72] else []) ++ [129; 196] ++ le32 (- grow * W) ++ [233] ++ le32 dist.

(** Second pass. *)
Definition op_bytes (W : Z) (lab : Z -> option Z) (glab : Z -> option (Z * Z)) (pos fs : Z) (o : aop) : list Z :=
  match o with
  | OByte b => [b mod 256]
  | OUse l => match lab l with Some a => le32 (a - (pos + 4)) | None => [] end
  | OGoto l => match glab l with
               | Some (a, f) => goto_bytes W (f - fs) (a - (pos + goto_size W))
               | None => []
               end
  | ODef _ | ODefGoto _ | OFrame _ => []
  end.
Fixpoint second_pass (W : Z) lab glab (pos fs : Z) (l : list aop) : list Z :=
  match l with
  | [] => []
  | o :: r => op_bytes W lab glab pos fs o ++ second_pass W lab glab (pos + op_size W o) (frame_after fs o) r
  end.
Definition assemble (W : Z) (l : list aop) : list Z :=
  second_pass W (label_addr W 0 l) (goto_addr W 0 0 l) 0 0 l.

(** The program's labels: used ones are defined, none twice, and none at address 0. *)
Definition defs (l : list aop) : list Z := flat_map (fun o => match o with ODef x => [x] | _ => [] end) l.
Definition gdefs (l : list aop) : list Z := flat_map (fun o => match o with ODefGoto x => [x] | _ => [] end) l.
Definition labels_ok (W : Z) (l : list aop) : Prop :=
  (forall x, In (OUse x) l -> In x (defs l)) /\ (forall x, In (OGoto x) l -> In x (gdefs l)) /\
  NoDup (defs l) /\ NoDup (gdefs l) /\
  (forall x a, label_addr W 0 l x = Some a -> 0 < a) /\
  (forall x a f, goto_addr W 0 0 l x = Some (a, f) -> 0 < a).
