(** * C30, continued: large immediates through the 32-bit path (exe.c:40-48) *)
From Coq Require Import ZArith List Bool Lia.
From Verif Require Import Base Asm AsmProof Elf PropAsm.
Import ListNotations.
Open Scope Z_scope.

(** [imm] is the literal: minus its value if that is small, else the address of its two halves [hp imm] and [hp (imm + 1)].
    A value that does not fit 32 bits is refused; one that fits is written exactly. *)
Theorem c30_large_immediate32 : forall hp imm s, ca s + 4 <= MAX_CODE_SIZE -> -2147483648 < imm < 2147483648 ->
  (0 < imm -> hp (imm + 1) <> 0 -> emit_i32_le_large_imm hp imm s = None) /\
  (imm <= 0 \/ hp (imm + 1) = 0 ->
   exists s', emit_i32_le_large_imm hp imm s = Some s' /\ ca s' = ca s + 4 /\
     num_at (code s') (ca s) 4 = if 0 <? imm then hp imm mod 2 ^ 32 else - imm).
Proof.
  intros hp imm s H R. unfold emit_i32_le_large_imm. split.
  - intros P N. destruct (Z.leb_spec imm 0); [lia|]. destruct (Z.eqb_spec (hp (imm + 1)) 0); [contradiction|reflexivity].
  - intros D. destruct (Z.leb_spec imm 0) as [L|L].
    + destruct (Z.ltb_spec 0 imm); [lia|]. destruct (c30_immediate32 (- imm) s H) as (s' & E & G1 & G2 & _).
      exists s'. split; [exact E|]. split; [exact G1|]. rewrite G2. apply Z.mod_small. change (2 ^ 32) with 4294967296. lia.
    + destruct (Z.ltb_spec 0 imm); [|lia]. destruct D as [D|D]; [lia|]. rewrite D. cbn [Z.eqb negb].
      destruct (c30_immediate32 (hp imm) s H) as (s' & E & G1 & G2 & _). exists s'. split; [exact E|]. split; [exact G1|exact G2].
Qed.
(** 3000000000 is kept at address 5 of the heap, 5000000000 at address 7. *)
Theorem c30_large_instance :
  let hp := fun a => if a =? 5 then 3000000000 else if a =? 7 then 705032704 else if a =? 8 then 1 else 0 in
  emit_i32_le_large_imm hp 7 as0 = None /\
  exists s', emit_i32_le_large_imm hp 5 as0 = Some s' /\ num_at (code s') 0 4 = 3000000000.
Proof.
  intros hp. split; [reflexivity|].
  destruct (proj2 (c30_large_immediate32 hp 5 as0 ltac:(vm_compute; discriminate) ltac:(lia)) (or_intror eq_refl)) as (s' & E & _ & G).
  exists s'. split; [exact E|exact G].
Qed.
