(** * Decoding what x86.c emits *)
From Coq Require Import ZArith List Lia Bool.
From Verif Require Import Base Asm AsmProof X86.
Import ListNotations.
Open Scope Z_scope.

(** ** Reading a known byte sequence *)
Lemma at_nth_error c p bs : at_ c p bs -> forall i b, nth_error bs i = Some b -> c (p + Z.of_nat i) = b.
Proof.
  revert p. induction bs as [|x r IH]; intros p H i b Hi; [destruct i; discriminate|].
  destruct H as [H1 H2]. destruct i as [|i]; cbn [nth_error] in Hi.
  - rewrite Z.add_0_r. congruence.
  - replace (p + Z.of_nat (S i)) with (p + 1 + Z.of_nat i) by lia. eapply IH; eauto.
Qed.
Lemma window_at_go f pc n bs : forall s, at_ f (pc + Z.of_nat s) bs ->
  exists r, map (fun k => f (pc + Z.of_nat k)) (seq s (length bs + n)) = bs ++ r.
Proof.
  induction bs as [|b bs IH]; intros s H; [eexists; reflexivity|].
  destruct H as [H1 H2]. destruct (IH (S s)) as [r Hr].
  { replace (pc + Z.of_nat (S s)) with (pc + Z.of_nat s + 1) by lia. exact H2. }
  exists r. cbn [length Nat.add seq map app]. now rewrite H1, Hr.
Qed.
Lemma window_at f pc bs : at_ f pc bs -> (length bs <= 15)%nat -> exists r, window f pc = bs ++ r.
Proof.
  intros H Hl. destruct (window_at_go f pc (15 - length bs) bs 0) as [r Hr]; [now rewrite Z.add_0_r|].
  exists r. unfold window. rewrite <- Hr. do 2 f_equal. lia.
Qed.

Lemma u32v_le32 n : u32v (n mod 256) ((n / 256) mod 256) ((n / 65536) mod 256) ((n / 16777216) mod 256) = n mod 4294967296.
Proof. unfold u32v. Z.div_mod_to_equations. lia. Qed.
Lemma s32_int n : int_range n -> s32 (n mod 4294967296) = n.
Proof. intros H. unfold s32, int_range in *. bdestr; Z.div_mod_to_equations; lia. Qed.

(** ** Bytes of label-free operations *)
Lemma second_pass_B W lab glab pos fs l : second_pass W lab glab pos fs (B l) = map (fun b => b mod 256) l.
Proof.
  revert pos. induction l as [|b r IH]; intros pos; [reflexivity|].
  unfold B in *. cbn [map second_pass op_bytes app]. now rewrite IH.
Qed.
Definition noframe (l : list aop) : Prop := forall o, In o l -> forall n, o <> OFrame n.
Lemma second_pass_app W lab glab a b : forall pos fs, noframe a ->
  second_pass W lab glab pos fs (a ++ b) = second_pass W lab glab pos fs a ++ second_pass W lab glab (pos + ops_size W a) fs b.
Proof.
  induction a as [|o r IH]; intros pos fs H; cbn [second_pass app ops_size].
  - now rewrite Z.add_0_r.
  - assert (frame_after fs o = fs) as Ef. { destruct o; try reflexivity. exfalso. eapply H; [now left|reflexivity]. }
    rewrite Ef, IH by (intros o' Ho' n'; apply H; now right). rewrite <- app_assoc. do 3 f_equal. lia.
Qed.

Lemma imm32_bytes n : map (fun b => b mod 256) [n; Z.shiftr n 8; Z.shiftr n 16; Z.shiftr n 24] = le32 n.
Proof. cbn [map le32]. rewrite !Z.shiftr_div_pow2 by lia. reflexivity. Qed.

(** ** The decoding lemmas, for every register *)
Lemma md_val k a b : 0 <= k < 4 -> 0 <= a < 8 -> 0 <= b < 8 ->
  md (64 * k + 8 * a + b) = k /\ mreg (64 * k + 8 * a + b) = a /\ mrm (64 * k + 8 * a + b) = b.
Proof. intros. unfold md, mreg, mrm. repeat split; Z.div_mod_to_equations; lia. Qed.

Definition rexbyte (W r b : Z) : list Z := if W =? 8 then [72 + 4 * r + b] else [].
Definition bit (z : Z) : Prop := z = 0 \/ z = 1.
Definition okbits (W r b : Z) : Prop := (W = 8 /\ bit r /\ bit b) \/ (W = 4 /\ r = 0 /\ b = 0).
Definition alu_code (a : alu) : Z :=
  match a with Aadd => 1 | Aor => 9 | Aand => 33 | Asub => 41 | Axor => 49 | Acmp => 57 | Amov => 137 end.
Definition shift_ext (k : shft) : Z := match k with Shl => 4 | Shr => 5 | Sar => 7 end.

Ltac okb H := destruct H as [(-> & [-> | ->] & [-> | ->])|(-> & -> & ->)].
Ltac dcv := cbv -[md mreg mrm s32 u32v u64v].
Ltac win Hat := let r := fresh "r" in let Hr := fresh in
  destruct (window_at _ _ _ Hat) as [r Hr]; [apply Nat.leb_le; reflexivity|]; unfold decode; rewrite Hr; clear Hat Hr.
Ltac mdv k a b := let M1 := fresh "M1" in let M2 := fresh "M2" in let M3 := fresh "M3" in let m := fresh "m" in
  destruct (md_val k a b) as (M1 & M2 & M3); [lia..|]; revert M1 M2 M3;
  let k64 := eval compute in (64 * k) in change (64 * k) with k64;
  generalize (k64 + 8 * a + b); intros m M1 M2 M3.
Ltac reg8 a H := let H1 := fresh in
  assert (H1 : a = 0 \/ a = 1 \/ a = 2 \/ a = 3 \/ a = 4 \/ a = 5 \/ a = 6 \/ a = 7) by lia; clear H;
  destruct H1 as [-> | [-> | [-> | [-> | [-> | [-> | [-> | ->]]]]]]].

Section Dec.
Variables (W rr rb a b : Z) (f : Z -> Z) (pc : Z) (z0 z1 z2 z3 : Z).
Hypothesis Hok : okbits W rr rb.
Hypothesis Ha : 0 <= a < 8.
Hypothesis Hb : 0 <= b < 8.

Lemma dec_alu op : at_ f pc (rexbyte W rr rb ++ [alu_code op; 192 + 8 * a + b]) ->
  decode W f pc = Some (IAlu op W (b + 8 * rb) (a + 8 * rr), zlen (rexbyte W rr rb) + 2).
Proof.
  mdv 3 a b. intros Hat. okb Hok; win Hat; destruct op; dcv; rewrite M1, M2, M3; reflexivity.
Qed.
Lemma dec_imul : at_ f pc (rexbyte W rr rb ++ [15; 175; 192 + 8 * a + b]) ->
  decode W f pc = Some (IImul W (a + 8 * rr) (b + 8 * rb), zlen (rexbyte W rr rb) + 3).
Proof.
  mdv 3 a b. intros Hat. okb Hok; win Hat; dcv; rewrite M1, M2, M3; reflexivity.
Qed.
(** Byte following the opcode and possible SIB byte of a memory operand. *)
Definition memb (a b : Z) : list Z := (128 + 8 * a + b) :: (if b =? 4 then [36] else []).
Ltac memt Hat := okb Hok; reg8 b Hb; win Hat; dcv.
Lemma dec_loadx (sg : bool) (n : Z) : n = 1 \/ n = 2 ->
  at_ f pc (rexbyte W rr rb ++ [15; 180 + 2 * n - (if n =? 1 then 0 else 1) + (if sg then 8 else 0)] ++ memb a b ++ [z0; z1; z2; z3]) ->
  decode W f pc = Some (ILoadX n sg W (a + 8 * rr) (b + 8 * rb) (s32 (u32v z0 z1 z2 z3)),
    zlen (rexbyte W rr rb) + 2 + zlen (memb a b) + 4).
Proof.
  intros Hn. unfold memb. mdv 2 a b. intros Hat.
  destruct sg; destruct Hn as [-> | ->]; okb Hok; reg8 b Hb; win Hat; dcv; rewrite M1, M2, M3; reflexivity.
Qed.
Lemma dec_store : at_ f pc (rexbyte W rr rb ++ [137] ++ memb a b ++ [z0; z1; z2; z3]) ->
  decode W f pc = Some (IStore W (b + 8 * rb) (s32 (u32v z0 z1 z2 z3)) (a + 8 * rr), zlen (rexbyte W rr rb) + 1 + zlen (memb a b) + 4).
Proof.
  unfold memb. mdv 2 a b. intros Hat. okb Hok; reg8 b Hb; win Hat; dcv; rewrite M1; dcv; rewrite M2, M3; reflexivity.
Qed.
Lemma dec_load : at_ f pc (rexbyte W rr rb ++ [139] ++ memb a b ++ [z0; z1; z2; z3]) ->
  decode W f pc = Some (ILoad W (a + 8 * rr) (b + 8 * rb) (s32 (u32v z0 z1 z2 z3)), zlen (rexbyte W rr rb) + 1 + zlen (memb a b) + 4).
Proof.
  unfold memb. mdv 2 a b. intros Hat. okb Hok; reg8 b Hb; win Hat; dcv; rewrite M1, M2, M3; reflexivity.
Qed.
Lemma dec_slash d : 0 <= d < 8 ->
  at_ f pc (rexbyte W 0 rb ++ [247; 192 + 8 * d + b]) ->
  decode W f pc = if d =? 7 then Some (IIdiv W (b + 8 * rb), zlen (rexbyte W 0 rb) + 2)
                  else if d =? 6 then Some (IDiv W (b + 8 * rb), zlen (rexbyte W 0 rb) + 2) else None.
Proof.
  intros Hd. mdv 3 d b. intros Hat. okb Hok; win Hat; dcv; rewrite M1, M2, M3; reflexivity.
Qed.
Lemma dec_shift k : at_ f pc (rexbyte W 0 rb ++ [211; 192 + 8 * shift_ext k + b]) ->
  decode W f pc = Some (IShift k W (b + 8 * rb), zlen (rexbyte W 0 rb) + 2).
Proof.
  assert (0 <= shift_ext k < 8) by (destruct k; cbn; lia).
  mdv 3 (shift_ext k) b. intros Hat. okb Hok; win Hat; destruct k; dcv; rewrite M1, M2, M3; reflexivity.
Qed.
Lemma dec_addimm : at_ f pc (rexbyte W 0 rb ++ [129; 192 + b; z0; z1; z2; z3]) ->
  decode W f pc = Some (IAddImm W (b + 8 * rb) (s32 (u32v z0 z1 z2 z3)), zlen (rexbyte W 0 rb) + 6).
Proof.
  replace (192 + b) with (192 + 8 * 0 + b) by lia.
  mdv 3 0 b. intros Hat. okb Hok; win Hat; dcv; rewrite M1, M2, M3; reflexivity.
Qed.
Lemma dec_movimm4 : W = 4 -> at_ f pc [184 + b; z0; z1; z2; z3] ->
  decode W f pc = Some (IMovImm 4 b (u32v z0 z1 z2 z3), 5).
Proof. intros ->. intros Hat. reg8 b Hb; win Hat; dcv; reflexivity. Qed.
Lemma dec_movimm8 y0 y1 y2 y3 : W = 8 -> at_ f pc [72 + rb; 184 + b; z0; z1; z2; z3; y0; y1; y2; y3] ->
  decode W f pc = Some (IMovImm 8 (b + 8 * rb) (u64v (u32v z0 z1 z2 z3) (u32v y0 y1 y2 y3)), 10).
Proof. intros E. intros Hat. okb Hok; try discriminate; reg8 b Hb; win Hat; dcv; reflexivity. Qed.
Lemma dec_cdq : at_ f pc (rexbyte W 0 0 ++ [153]) -> decode W f pc = Some (ICdq W, zlen (rexbyte W 0 0) + 1).
Proof. intros Hat. okb Hok; win Hat; dcv; reflexivity. Qed.
Lemma dec_movsxd : W = 8 -> at_ f pc (rexbyte W rr rb ++ [99] ++ memb a b ++ [z0; z1; z2; z3]) ->
  decode W f pc = Some (ILoadX 4 true W (a + 8 * rr) (b + 8 * rb) (s32 (u32v z0 z1 z2 z3)), zlen (rexbyte W rr rb) + 1 + zlen (memb a b) + 4).
Proof.
  intros E. unfold memb. mdv 2 a b. intros Hat. okb Hok; try discriminate; reg8 b Hb; win Hat; dcv; rewrite M1, M2, M3; reflexivity.
Qed.
(** Without REX: narrow moves. *)
Lemma dec_store8 : a < 4 -> at_ f pc ([136] ++ memb a b ++ [z0; z1; z2; z3]) ->
  decode W f pc = Some (IStore 1 b (s32 (u32v z0 z1 z2 z3)) a, 1 + zlen (memb a b) + 4).
Proof.
  intros Ha4. unfold memb. mdv 2 a b. intros Hat.
  assert (HA : a = 0 \/ a = 1 \/ a = 2 \/ a = 3) by lia.
  assert (HW : W = 4 \/ W = 8) by (okb Hok; auto).
  destruct HA as [-> | [-> | [-> | ->]]]; destruct HW as [-> | ->]; reg8 b Hb; win Hat; dcv; rewrite M1; dcv; rewrite M2; dcv; rewrite M3; reflexivity.
Qed.
Lemma dec_store16 : at_ f pc ([102; 137] ++ memb a b ++ [z0; z1; z2; z3]) ->
  decode W f pc = Some (IStore 2 b (s32 (u32v z0 z1 z2 z3)) a, 2 + zlen (memb a b) + 4).
Proof.
  unfold memb. mdv 2 a b. intros Hat. assert (HW : W = 4 \/ W = 8) by (okb Hok; auto).
  reg8 a Ha; destruct HW as [-> | ->]; reg8 b Hb; win Hat; dcv; rewrite M1; dcv; rewrite M2, M3; reflexivity.
Qed.
Lemma dec_store32 : at_ f pc ([137] ++ memb a b ++ [z0; z1; z2; z3]) ->
  decode W f pc = Some (IStore 4 b (s32 (u32v z0 z1 z2 z3)) a, 1 + zlen (memb a b) + 4).
Proof.
  unfold memb. mdv 2 a b. intros Hat. assert (HW : W = 4 \/ W = 8) by (okb Hok; auto).
  reg8 a Ha; destruct HW as [-> | ->]; reg8 b Hb; win Hat; dcv; rewrite M1; dcv; rewrite M2, M3; reflexivity.
Qed.
Lemma dec_load32 : at_ f pc ([139] ++ memb a b ++ [z0; z1; z2; z3]) ->
  decode W f pc = Some (ILoad 4 a b (s32 (u32v z0 z1 z2 z3)), 1 + zlen (memb a b) + 4).
Proof.
  unfold memb. mdv 2 a b. intros Hat. assert (HW : W = 4 \/ W = 8) by (okb Hok; auto).
  reg8 a Ha; destruct HW as [-> | ->]; reg8 b Hb; win Hat; dcv; rewrite M1; dcv; rewrite M2, M3; reflexivity.
Qed.
Lemma dec_push : at_ f pc [80 + b] -> decode W f pc = Some (IPush b, 1).
Proof.
  intros Hat. assert (HW : W = 4 \/ W = 8) by (okb Hok; auto). destruct HW as [-> | ->]; reg8 b Hb; win Hat; reflexivity.
Qed.
Lemma dec_pop : at_ f pc [88 + b] -> decode W f pc = Some (IPop b, 1).
Proof.
  intros Hat. assert (HW : W = 4 \/ W = 8) by (okb Hok; auto). destruct HW as [-> | ->]; reg8 b Hb; win Hat; reflexivity.
Qed.
Lemma dec_jmp : at_ f pc [233; z0; z1; z2; z3] -> decode W f pc = Some (IJmp (s32 (u32v z0 z1 z2 z3)), 5).
Proof. intros Hat. assert (HW : W = 4 \/ W = 8) by (okb Hok; auto). destruct HW as [-> | ->]; win Hat; reflexivity. Qed.
Lemma dec_call : at_ f pc [232; z0; z1; z2; z3] -> decode W f pc = Some (ICall (s32 (u32v z0 z1 z2 z3)), 5).
Proof. intros Hat. assert (HW : W = 4 \/ W = 8) by (okb Hok; auto). destruct HW as [-> | ->]; win Hat; reflexivity. Qed.
Lemma dec_callr : at_ f pc [255; 208 + b] -> decode W f pc = Some (ICallR b, 2).
Proof.
  replace (208 + b) with (192 + 8 * 2 + b) by lia. mdv 3 2 b.
  intros Hat. assert (HW : W = 4 \/ W = 8) by (okb Hok; auto). destruct HW as [-> | ->]; win Hat; dcv; rewrite M1, M2, M3;
  reg8 b Hb; reflexivity.
Qed.
Lemma dec_ret : at_ f pc [195] -> decode W f pc = Some (IRet, 1).
Proof. intros Hat. assert (HW : W = 4 \/ W = 8) by (okb Hok; auto). destruct HW as [-> | ->]; win Hat; reflexivity. Qed.
Lemma dec_jcc c : 0 <= c < 16 -> at_ f pc [15; 128 + c; z0; z1; z2; z3] -> decode W f pc = Some (IJcc c (s32 (u32v z0 z1 z2 z3)), 6).
Proof.
  intros Hc Hat.
  assert (HW : W = 4 \/ W = 8) by (okb Hok; auto).
  assert (HC : c = 0 \/ c = 1 \/ c = 2 \/ c = 3 \/ c = 4 \/ c = 5 \/ c = 6 \/ c = 7 \/ c = 8 \/ c = 9 \/ c = 10 \/ c = 11 \/
          c = 12 \/ c = 13 \/ c = 14 \/ c = 15) by lia.
  destruct HW as [-> | ->]; win Hat; repeat (destruct HC as [E'|HC]; [subst c; reflexivity|]); subst c; reflexivity.
Qed.
Lemma dec_int : at_ f pc [205; z0] -> decode W f pc = Some (IInt z0, 2).
Proof. intros Hat. assert (HW : W = 4 \/ W = 8) by (okb Hok; auto). destruct HW as [-> | ->]; win Hat; reflexivity. Qed.
Lemma dec_syscall : W = 8 -> at_ f pc [15; 5] -> decode W f pc = Some (ISyscall, 2).
Proof. intros -> Hat. win Hat. reflexivity. Qed.
End Dec.

(** ** Every helper call *)
Inductive hcall :=
| HAlu (op : alu) (dst src : Z) | HAddImm (dst imm : Z) | HAddLbl (dst lbl : Z)
| HMovImm (dst imm : Z) | HMovLarge (dst lo hi : Z)
| HStore (w base off src : Z) | HLoad (sg : bool) (w dst base off : Z)
| HImul (dst src : Z) | HIdiv (src : Z) | HDiv (src : Z) | HCdq | HShift (k : shft) (dst : Z)
| HPush (r : Z) | HPop (r : Z) | HJump (l : Z) | HCall (l : Z) | HCallR (r : Z) | HRet | HJcc (c l : Z)
| HInt (n : Z) | HSyscall.

(** The helper functions of x86.c by name. *)
Definition emit_of (W : Z) (h : hcall) : list aop :=
  match h with
  | HAlu Aadd d s => add_reg_reg W d s | HAlu Aor d s => or_reg_reg W d s | HAlu Aand d s => and_reg_reg W d s
  | HAlu Asub d s => sub_reg_reg W d s | HAlu Axor d s => xor_reg_reg W d s | HAlu Acmp d s => cmp_reg_reg W d s
  | HAlu Amov d s => mov_reg_reg W d s
  | HAddImm d n => add_reg_imm W d n | HAddLbl d l => add_reg_lbl W d l
  | HMovImm d n => mov_reg_imm W d n | HMovLarge d lo hi => mov_reg_large_imm W d lo hi
  | HStore w b o s => if w =? 1 then mov_mem8_reg W b o s else if w =? 2 then mov_mem16_reg W b o s
                      else if w =? 4 then mov_mem32_reg W b o s else mov_mem64_reg W b o s
  | HLoad false w d b o => if w =? 1 then mov_reg_mem8 W d b o else if w =? 2 then mov_reg_mem16 W d b o
                           else if w =? 4 then mov_reg_mem32 W d b o else mov_reg_mem64 W d b o
  | HLoad true w d b o => if w =? 1 then mov_reg_mem8_sign_ext W d b o else if w =? 2 then mov_reg_mem16_sign_ext W d b o
                          else if w =? 4 then mov_reg_mem32_sign_ext W d b o else mov_reg_mem64 W d b o
  | HImul d s => imul_reg_reg W d s | HIdiv s => idiv_reg W s | HDiv s => div_reg W s | HCdq => cdq_cqo W
  | HShift Shl d => op_reg_slash_digit W 0xd3 4 d | HShift Sar d => op_reg_slash_digit W 0xd3 7 d
  | HShift Shr d => op_reg_slash_digit W 0xd3 5 d
  | HPush r => push_reg r | HPop r => pop_reg r | HJump l => jump l | HCall l => call l | HCallR r => call_reg r
  | HRet => ret | HJcc c l => jump_cond c l | HInt n => int_i8 n | HSyscall => syscall_
  end.

(** What the call asks for.  [disp l]: distance from the end of the instruction to label [l]. *)
Definition meaning (W : Z) (disp : Z -> Z) (h : hcall) : instr :=
  match h with
  | HAlu op d s => IAlu op W d s
  | HAddImm d n => IAddImm W d n
  | HAddLbl d l => IAddImm W d (disp l)
  | HMovImm d n => IMovImm W d (n mod 2 ^ (8 * W))
  | HMovLarge d lo hi => IMovImm W d ((lo mod 2 ^ 32 + 2 ^ 32 * (hi mod 2 ^ 32)) mod 2 ^ (8 * W))
  | HStore w b o s => IStore w b o s
  | HLoad sg w d b o => if w =? W then ILoad w d b o
                        else if (w =? 4) && negb sg then ILoad 4 d b o (* a 32-bit move clears the upper half *)
                        else ILoadX w sg W d b o
  | HImul d s => IImul W d s | HIdiv s => IIdiv W s | HDiv s => IDiv W s | HCdq => ICdq W
  | HShift k d => IShift k W d
  | HPush r => IPush r | HPop r => IPop r
  | HJump l => IJmp (disp l) | HCall l => ICall (disp l) | HCallR r => ICallR r | HRet => IRet
  | HJcc c l => IJcc c (disp l) | HInt n => IInt n | HSyscall => ISyscall
  end.

Definition is_reg (W r : Z) : Prop := 0 <= r < (if W =? 8 then 16 else 8).
(** The calls covered: any register, except where x86.c emits no REX prefix (push, pop, indirect call, moves
    narrower than a word), where only registers below 8 work, and 8-bit stores, where only 0-3 do. *)
Definition valid (W : Z) (h : hcall) : Prop :=
  match h with
  | HAlu _ d s => is_reg W d /\ is_reg W s
  | HAddImm d n => is_reg W d /\ int_range n
  | HAddLbl d _ => is_reg W d
  | HMovImm d n => is_reg W d /\ int_range n
  | HMovLarge d _ _ => is_reg W d
  | HStore w b o s => int_range o /\
      (w = W /\ is_reg W b /\ is_reg W s \/ w = 1 /\ 0 <= b < 8 /\ 0 <= s < 4 \/ (w = 2 \/ w = 4) /\ 0 <= b < 8 /\ 0 <= s < 8)
  | HLoad sg w d b o => int_range o /\
      (((w = 1 \/ w = 2 \/ w = W) /\ is_reg W d /\ is_reg W b /\ (w = 4 -> sg = false)) \/
       (w = 4 /\ W = 8 /\ if sg then is_reg W d /\ is_reg W b else 0 <= d < 8 /\ 0 <= b < 8))
  | HImul d s => is_reg W d /\ is_reg W s
  | HIdiv s | HDiv s => is_reg W s
  | HCdq | HRet => True
  | HShift _ d => is_reg W d
  | HPush r | HPop r | HCallR r => 0 <= r < 8
  | HJump _ | HCall _ => True
  | HJcc c _ => 0 <= c < 16
  | HInt n => 0 <= n < 256
  | HSyscall => W = 8
  end.
Definition hlabel (h : hcall) : option Z :=
  match h with HAddLbl _ l | HJump l | HCall l | HJcc _ l => Some l | _ => None end.

Lemma modrm_byte k s d : 0 <= k < 4 -> 0 <= s < 16 -> 0 <= d < 16 ->
  (64 * k + Z.shiftl (Z.land s 7) 3 + Z.land d 7) mod 256 = 64 * k + 8 * (s mod 8) + d mod 8 /\
  (64 * k + Z.land s 7 * 8 + Z.land d 7) mod 256 = 64 * k + 8 * (s mod 8) + d mod 8.
Proof.
  intros. change 7 with (Z.ones 3). rewrite !Z.land_ones, !Z.shiftl_mul_pow2 by lia. change (2 ^ 3) with 8.
  split; rewrite Z.mod_small; Z.div_mod_to_equations; lia.
Qed.
Lemma land7 d : Z.land d 7 = d mod 8.
Proof. change 7 with (Z.ones 3). now rewrite Z.land_ones by lia. Qed.
Lemma reg_split W r : W = 4 \/ W = 8 -> is_reg W r ->
  0 <= r < 16 /\ 0 <= r mod 8 < 8 /\ r = r mod 8 + 8 * (r / 8) /\ (W = 4 -> r / 8 = 0) /\ bit (r / 8) /\ b2z (8 <=? r) = r / 8.
Proof.
  intros HW H. unfold is_reg, bit, b2z in *.
  assert (0 <= r < 16 /\ (W = 4 -> r < 8)) as [H1 H2] by (destruct HW as [-> | ->]; cbn in H; lia).
  repeat match goal with |- _ /\ _ => split end; try lia.
  - apply Z.mod_pos_bound; lia.
  - apply Z.mod_pos_bound; lia.
  - pose proof (Z.div_mod r 8). lia.
  - intros E. apply Z.div_small. lia.
  - assert (0 <= r / 8 < 2) by (split; [apply Z.div_pos; lia|apply Z.div_lt_upper_bound; lia]). lia.
  - destruct (Z.leb_spec 8 r); Z.div_mod_to_equations; lia.
Qed.
Lemma rex_bytes W lab glab pos fs r1 r2 : W = 4 \/ W = 8 -> is_reg W r1 -> is_reg W r2 ->
  second_pass W lab glab pos fs (rex_prefix W r1 r2) = rexbyte W (r1 / 8) (r2 / 8) /\ okbits W (r1 / 8) (r2 / 8).
Proof.
  intros HW H1 H2. destruct (reg_split W r1 HW H1) as (_ & _ & _ & E1 & B1 & V1), (reg_split W r2 HW H2) as (_ & _ & _ & E2 & B2 & V2).
  unfold rex_prefix, rexbyte, okbits.
  destruct HW as [-> | ->]; cbn [Z.eqb Pos.eqb].
  - split; [reflexivity|]. right. auto.
  - rewrite second_pass_B. cbn [map]. rewrite V1, V2. split; [|left; auto].
    unfold bit in *. f_equal. destruct B1 as [-> | ->], B2 as [-> | ->]; reflexivity.
Qed.

Lemma noframe_B l : noframe (B l).
Proof. intros o H n E. subst. unfold B in H. apply in_map_iff in H. destruct H as (x & E & _). discriminate. Qed.
Lemma noframe_app a b : noframe a -> noframe b -> noframe (a ++ b).
Proof. intros Ha Hb o H. apply in_app_or in H. destruct H; eauto. Qed.
Lemma noframe_nil : noframe []. Proof. intros o []. Qed.
Lemma noframe_use l : noframe [OUse l]. Proof. intros o [<-|[]] n E. discriminate. Qed.
Lemma noframe_rex W a b : noframe (rex_prefix W a b).
Proof. unfold rex_prefix. destruct (W =? 8); [apply noframe_B|apply noframe_nil]. Qed.
Ltac nf := repeat first [apply noframe_app | apply noframe_rex | apply noframe_nil | apply noframe_use | apply noframe_B |
   match goal with |- noframe (if ?b then _ else _) => destruct b end ].
Lemma size_app W a b : ops_size W (a ++ b) = ops_size W a + ops_size W b.
Proof. induction a as [|o r IH]; cbn [ops_size app]; lia. Qed.
Lemma size_B W l : ops_size W (B l) = zlen l.
Proof. induction l as [|o r IH]; [reflexivity|]. rewrite zlen_cons. cbn [B map ops_size op_size]. unfold B in IH. lia. Qed.
Lemma size_rex W a b c d : W = 4 \/ W = 8 -> ops_size W (rex_prefix W a b) = zlen (rexbyte W c d).
Proof. intros [-> | ->]; reflexivity. Qed.

Section SP.
Variables (W : Z) (lab : Z -> option Z) (glab : Z -> option (Z * Z)).
Hypothesis HW : W = 4 \/ W = 8.
Notation sp := (second_pass W lab glab).

Lemma sp_imm32 pos fs n : sp pos fs (imm32 n) = le32 n.
Proof. unfold imm32. rewrite second_pass_B. apply imm32_bytes. Qed.
Lemma sp_op_reg_reg pos fs opc d s : 0 <= opc < 256 -> is_reg W d -> is_reg W s ->
  sp pos fs (op_reg_reg W opc d s W) = rexbyte W (s / 8) (d / 8) ++ [opc; 192 + 8 * (s mod 8) + d mod 8] /\
  ops_size W (op_reg_reg W opc d s W) = zlen (rexbyte W (s / 8) (d / 8)) + 2.
Proof.
  intros Ho Hd Hs. destruct (reg_split W d HW Hd) as (Rd & _), (reg_split W s HW Hs) as (Rs & _).
  destruct (rex_bytes W lab glab pos fs s d HW Hs Hd) as [E _].
  assert (op_reg_reg W opc d s W = rex_prefix W s d ++ B [opc] ++ mod_rm s d) as ->.
  { unfold op_reg_reg. destruct HW as [-> | ->]; reflexivity. }
  destruct (modrm_byte 3 s d) as [M _]; [lia..|]. change (64 * 3) with 192 in M.
  split.
  - rewrite !second_pass_app by nf. rewrite E. unfold mod_rm. rewrite !second_pass_B. cbn [map app].
    rewrite (Z.mod_small opc) by lia. rewrite M. reflexivity.
  - rewrite !size_app, (size_rex W s d (s / 8) (d / 8) HW). unfold mod_rm. rewrite !size_B. unfold zlen. cbn [length]. lia.
Qed.
Lemma sp_slash pos fs opc g d : 0 <= opc < 256 -> 0 <= g < 8 -> is_reg W d ->
  sp pos fs (op_reg_slash_digit W opc g d) = rexbyte W 0 (d / 8) ++ [opc; 192 + 8 * g + d mod 8] /\
  ops_size W (op_reg_slash_digit W opc g d) = zlen (rexbyte W 0 (d / 8)) + 2.
Proof.
  intros Ho Hg Hd. destruct (reg_split W d HW Hd) as (Rd & _).
  assert (H0 : is_reg W 0) by (unfold is_reg; destruct HW as [-> | ->]; cbn; lia).
  destruct (rex_bytes W lab glab pos fs 0 d HW H0 Hd) as [E _].
  unfold op_reg_slash_digit. destruct (modrm_byte 3 g d) as [M _]; [lia..|]. change (64 * 3) with 192 in M.
  rewrite (Z.mod_small g) in M by lia.
  split.
  - rewrite !second_pass_app by nf. rewrite E. unfold mod_rm. rewrite !second_pass_B. cbn [map app].
    rewrite (Z.mod_small opc) by lia. rewrite M. reflexivity.
  - rewrite !size_app, (size_rex W 0 d 0 (d / 8) HW). unfold mod_rm. rewrite !size_B. unfold zlen. cbn [length]. lia.
Qed.
Lemma memb_sib r : 0 <= r < 16 -> (r =? SP) || (r =? R12) = (r mod 8 =? 4).
Proof.
  intros H. unfold SP, R12.
  assert (r = 0 \/ r = 1 \/ r = 2 \/ r = 3 \/ r = 4 \/ r = 5 \/ r = 6 \/ r = 7 \/ r = 8 \/ r = 9 \/ r = 10 \/ r = 11 \/
          r = 12 \/ r = 13 \/ r = 14 \/ r = 15) as HR by lia.
  repeat (destruct HR as [E|HR]; [rewrite E; reflexivity|]). rewrite HR. reflexivity.
Qed.
Lemma sp_memb pos fs op r b o : 0 <= op < 256 -> 0 <= r < 16 -> 0 <= b < 16 ->
  sp pos fs (B [op; 0x80 + Z.land r 7 * 8 + Z.land b 7] ++ (if (b =? SP) || (b =? R12) then B [0x24] else []) ++ imm32 o) =
    [op] ++ memb (r mod 8) (b mod 8) ++ le32 o /\
  ops_size W (B [op; 0x80 + Z.land r 7 * 8 + Z.land b 7] ++ (if (b =? SP) || (b =? R12) then B [0x24] else []) ++ imm32 o) =
    1 + zlen (memb (r mod 8) (b mod 8)) + 4.
Proof.
  intros Ho Hr Hb. rewrite (memb_sib b Hb). destruct (modrm_byte 2 r b) as [_ M]; [lia..|]. change (64 * 2) with 128 in M.
  unfold memb. split.
  - rewrite !second_pass_app by nf. rewrite sp_imm32, second_pass_B. cbn [map app]. rewrite M, (Z.mod_small op) by lia.
    destruct (b mod 8 =? 4); [rewrite second_pass_B|]; reflexivity.
  - rewrite !size_app, size_B. unfold imm32. rewrite size_B. destruct (b mod 8 =? 4); [rewrite size_B|]; reflexivity.
Qed.
Lemma sp_mov_memory pos fs op r b o : 0 <= op < 256 -> is_reg W r -> is_reg W b ->
  sp pos fs (mov_memory W op r b o W) = rexbyte W (r / 8) (b / 8) ++ [op] ++ memb (r mod 8) (b mod 8) ++ le32 o /\
  ops_size W (mov_memory W op r b o W) = zlen (rexbyte W (r / 8) (b / 8)) + 1 + zlen (memb (r mod 8) (b mod 8)) + 4.
Proof.
  intros Ho Hr Hb. destruct (reg_split W r HW Hr) as (Rr & _), (reg_split W b HW Hb) as (Rb & _).
  destruct (rex_bytes W lab glab pos fs r b HW Hr Hb) as [E _].
  assert (mov_memory W op r b o W = rex_prefix W r b ++ (B [op; 0x80 + Z.land r 7 * 8 + Z.land b 7] ++ (if (b =? SP) || (b =? R12) then B [0x24] else []) ++ imm32 o)) as ->.
  { unfold mov_memory. destruct HW as [-> | ->]; reflexivity. }
  destruct (sp_memb (pos + ops_size W (rex_prefix W r b)) fs op r b o Ho Rr Rb) as [E1 E2]. split.
  - rewrite second_pass_app by nf. now rewrite E, E1.
  - rewrite size_app, (size_rex W r b (r / 8) (b / 8) HW), E2. lia.
Qed.
Lemma sp_mov_memory_n pos fs op r b o n : n = 1 \/ n = 2 \/ n = 4 -> 0 <= op < 256 -> 0 <= r < 8 -> 0 <= b < 8 ->
  sp pos fs (mov_memory W op r b o n) = (if n =? 2 then [102] else []) ++ [op] ++ memb r b ++ le32 o /\
  ops_size W (mov_memory W op r b o n) = (if n =? 2 then 2 else 1) + zlen (memb r b) + 4.
Proof.
  intros Hn Ho Hr Hb.
  assert (mov_memory W op r b o n = (if n =? 2 then B [102] else []) ++ (B [op; 0x80 + Z.land r 7 * 8 + Z.land b 7] ++ (if (b =? SP) || (b =? R12) then B [0x24] else []) ++ imm32 o)) as ->.
  { unfold mov_memory. destruct Hn as [-> | [-> | ->]]; reflexivity. }
  destruct (sp_memb (pos + ops_size W (if n =? 2 then B [102] else [])) fs op r b o Ho) as [E1 E2]; [lia..|].
  rewrite (Z.mod_small r), (Z.mod_small b) in E1, E2 by lia. split.
  - rewrite second_pass_app by nf. rewrite E1. destruct Hn as [-> | [-> | ->]]; reflexivity.
  - rewrite size_app, E2. destruct Hn as [-> | [-> | ->]]; cbn -[Z.add]; lia.
Qed.
Lemma sp_extend pos fs op r b o i0f : 0 <= op < 256 -> is_reg W r -> is_reg W b ->
  sp pos fs (mov_memory_extend W op r b o i0f) =
    rexbyte W (r / 8) (b / 8) ++ (if i0f then [15] else []) ++ [op] ++ memb (r mod 8) (b mod 8) ++ le32 o /\
  ops_size W (mov_memory_extend W op r b o i0f) =
    zlen (rexbyte W (r / 8) (b / 8)) + (if i0f then 2 else 1) + zlen (memb (r mod 8) (b mod 8)) + 4.
Proof.
  intros Ho Hr Hb. destruct (reg_split W r HW Hr) as (Rr & _), (reg_split W b HW Hb) as (Rb & _).
  destruct (rex_bytes W lab glab pos fs r b HW Hr Hb) as [E _]. unfold mov_memory_extend.
  pose proof (fun p => sp_memb p fs op r b o Ho Rr Rb) as EE. split.
  - rewrite second_pass_app by nf. rewrite second_pass_app by nf. rewrite E, (proj1 (EE _)). destruct i0f; reflexivity.
  - rewrite size_app, size_app, (size_rex W r b (r / 8) (b / 8) HW), (proj2 (EE 0)). destruct i0f; cbn [ops_size]; try rewrite size_B; unfold zlen; cbn [length]; lia.
Qed.
Lemma reg0 : is_reg W 0. Proof. unfold is_reg. destruct HW as [-> | ->]; cbn; lia. Qed.
Lemma sp_use pos fs l : sp pos fs [OUse l] = match lab l with Some a => le32 (a - (pos + 4)) | None => [] end.
Proof. cbn [second_pass op_bytes]. now rewrite app_nil_r. Qed.
End SP.

Lemma le32_u32v n : exists z0 z1 z2 z3, le32 n = [z0; z1; z2; z3] /\ u32v z0 z1 z2 z3 = n mod 4294967296.
Proof. do 4 eexists. split; [reflexivity|]. apply u32v_le32. Qed.

Definition disp_of (lab : Z -> option Z) (endp : Z) (l : Z) : Z := match lab l with Some a => a - endp | None => 0 end.

Theorem helper_decodes W h lab glab f cb pos fs : W = 4 \/ W = 8 -> valid W h ->
  (forall l, hlabel h = Some l -> exists a, lab l = Some a /\ int_range (a - (pos + ops_size W (emit_of W h)))) ->
  at_ f (cb + pos) (second_pass W lab glab pos fs (emit_of W h)) ->
  decode W f (cb + pos) = Some (meaning W (disp_of lab (pos + ops_size W (emit_of W h))) h, ops_size W (emit_of W h)).
Proof.
  intros HW Hv Hl Hat.
  pose proof (reg0 W HW) as R0.
  assert (OK : okbits W 0 0) by (unfold okbits, bit; destruct HW as [-> | ->]; auto).
  destruct h; cbn [valid hlabel] in Hv, Hl.
  - (* alu *) destruct Hv as [Hd Hs].
    assert (E : emit_of W (HAlu op dst src) = op_reg_reg W (alu_code op) dst src W) by (destruct op; reflexivity).
    rewrite E in *.
    assert (0 <= alu_code op < 256) by (destruct op; cbn; lia).
    destruct (sp_op_reg_reg W lab glab HW pos fs (alu_code op) dst src) as [E1 E2]; auto.
    rewrite E1 in Hat. rewrite E2. cbn [meaning].
    destruct (reg_split W dst HW Hd) as (_ & Md & Ed & _), (reg_split W src HW Hs) as (_ & Ms & Es & _).
    destruct (rex_bytes W lab glab pos fs src dst HW Hs Hd) as [_ Hok].
    rewrite (dec_alu W _ _ _ _ f _ Hok Ms Md op Hat), <- Ed, <- Es. reflexivity.
  - (* add imm *) destruct Hv as [Hd Hn]. cbn [emit_of meaning] in *. unfold add_reg_imm in *.
    destruct (reg_split W dst HW Hd) as (Rd & Md & Ed & _).
    destruct (rex_bytes W lab glab pos fs 0 dst HW R0 Hd) as [E Hok].
    destruct (modrm_byte 3 0 dst) as [M _]; [lia..|]. change (64 * 3) with 192 in M.
    rewrite !second_pass_app, E, sp_imm32 in Hat by nf. unfold mod_rm in Hat. rewrite !second_pass_B in Hat. cbn [map app] in Hat.
    destruct (le32_u32v imm) as (z0 & z1 & z2 & z3 & EL & EV). rewrite M, EL in Hat.
    rewrite !size_app, (size_rex W 0 dst (0 / 8) (dst / 8) HW).
    rewrite (dec_addimm W _ _ _ f _ z0 z1 z2 z3 Hok Md Hat), <- Ed, EV, s32_int by assumption. do 2 f_equal.
  - (* add label *) cbn [emit_of meaning] in *. unfold add_reg_lbl in *.
    destruct (reg_split W dst HW Hv) as (Rd & Md & Ed & _).
    destruct (rex_bytes W lab glab pos fs 0 dst HW R0 Hv) as [E Hok].
    destruct (modrm_byte 3 0 dst) as [M _]; [lia..|]. change (64 * 3) with 192 in M.
    destruct (Hl lbl eq_refl) as (a & La & Hr).
    rewrite !second_pass_app, E, sp_use, La in Hat by nf. unfold mod_rm in Hat. rewrite !second_pass_B in Hat. cbn [map app] in Hat.
    match type of Hat with context [le32 ?x] => destruct (le32_u32v x) as (z0 & z1 & z2 & z3 & EL & EV); rewrite M, EL in Hat; set (dd := x) in * end.
    unfold disp_of. rewrite La.
    assert (a - (pos + ops_size W (rex_prefix W 0 dst ++ B [129] ++ mod_rm 0 dst ++ [OUse lbl])) = dd) as Ed'.
    { unfold dd. rewrite !size_app. unfold mod_rm. rewrite !size_B. cbn [ops_size op_size]. lia. }
    rewrite Ed' in *.
    rewrite !size_app, (size_rex W 0 dst (0 / 8) (dst / 8) HW).
    rewrite (dec_addimm W _ _ _ f _ z0 z1 z2 z3 Hok Md Hat), <- Ed, EV, s32_int by assumption. do 2 f_equal.
  - (* mov imm *) destruct Hv as [Hd Hn]. cbn [emit_of meaning] in *. unfold mov_reg_imm in *.
    destruct (reg_split W dst HW Hd) as (Rd & Md & Ed & E4 & Bd & V).
    destruct (rex_bytes W lab glab pos fs 0 dst HW R0 Hd) as [E Hok].
    rewrite !second_pass_app, E in Hat by nf. rewrite !second_pass_B, land7 in Hat. cbn [map app] in Hat.
    rewrite (Z.mod_small (184 + dst mod 8)) in Hat by lia.
    rewrite !size_app, (size_rex W 0 dst (0 / 8) (dst / 8) HW).
    destruct HW as [-> | ->].
    + change (4 =? 8) with false in Hat |- *. cbv iota in Hat |- *. rewrite sp_imm32 in Hat.
      destruct (le32_u32v imm) as (z0 & z1 & z2 & z3 & EL & EV). rewrite EL in Hat. cbn [app rexbyte Z.eqb Pos.eqb] in Hat.
      rewrite (dec_movimm4 4 0 0 _ f _ z0 z1 z2 z3 OK Md eq_refl Hat), EV.
      rewrite Ed at 2. rewrite E4 by reflexivity. rewrite Z.add_0_r. reflexivity.
    + change (8 =? 8) with true in Hat |- *. cbv iota in Hat |- *. unfold imm64 in *.
      rewrite second_pass_app, !sp_imm32 in Hat by apply noframe_B.
      destruct (le32_u32v imm) as (z0 & z1 & z2 & z3 & EL & EV).
      destruct (le32_u32v (Z.shiftr imm 31)) as (y0 & y1 & y2 & y3 & EL' & EV'). rewrite EL, EL' in Hat.
      cbn [app rexbyte Z.eqb Pos.eqb] in Hat. change (0 / 8) with 0 in *. rewrite Z.mul_0_r, Z.add_0_r in Hat.
      rewrite (dec_movimm8 8 0 (dst / 8) _ f _ z0 z1 z2 z3 Hok Md y0 y1 y2 y3 eq_refl Hat), EV, EV', <- Ed.
      do 2 f_equal. f_equal. unfold u64v. rewrite Z.shiftr_div_pow2 by lia. unfold int_range in Hn.
      change (2 ^ 31) with 2147483648. change (2 ^ (8 * 8)) with 18446744073709551616.
      assert (imm / 2147483648 = if imm <? 0 then -1 else 0) as ->.
      { destruct (Z.ltb_spec imm 0); [symmetry; apply Z.div_unique with (r := imm + 2147483648); lia|apply Z.div_small; lia]. }
      destruct (Z.ltb_spec imm 0); Z.div_mod_to_equations; lia.
  - (* mov large *) cbn [emit_of meaning] in *. unfold mov_reg_large_imm in *.
    destruct (reg_split W dst HW Hv) as (Rd & Md & Ed & E4 & Bd & V).
    destruct (rex_bytes W lab glab pos fs 0 dst HW R0 Hv) as [E Hok].
    rewrite !second_pass_app, E, sp_imm32 in Hat by nf. rewrite !second_pass_B, land7 in Hat. cbn [map app] in Hat.
    rewrite (Z.mod_small (184 + dst mod 8)) in Hat by lia.
    rewrite !size_app, (size_rex W 0 dst (0 / 8) (dst / 8) HW).
    destruct (le32_u32v lo) as (z0 & z1 & z2 & z3 & EL & EV).
    destruct (le32_u32v hi) as (y0 & y1 & y2 & y3 & EL' & EV').
    rewrite EL in Hat.
    destruct HW as [-> | ->].
    + change (4 =? 8) with false in Hat |- *. cbv iota in Hat |- *. cbn [app rexbyte Z.eqb Pos.eqb second_pass] in Hat.
      rewrite (dec_movimm4 4 0 0 _ f _ z0 z1 z2 z3 OK Md eq_refl Hat), EV.
      rewrite Ed at 2. rewrite E4 by reflexivity. rewrite Z.add_0_r. do 2 f_equal. f_equal.
      change (2 ^ (8 * 4)) with (2 ^ 32). change (2 ^ 32) with 4294967296. Z.div_mod_to_equations; lia.
    + change (8 =? 8) with true in Hat |- *. cbv iota in Hat |- *. rewrite sp_imm32, EL' in Hat.
      cbn [app rexbyte Z.eqb Pos.eqb] in Hat. change (0 / 8) with 0 in *. rewrite Z.mul_0_r, Z.add_0_r in Hat.
      rewrite (dec_movimm8 8 0 (dst / 8) _ f _ z0 z1 z2 z3 Hok Md y0 y1 y2 y3 eq_refl Hat), EV, EV', <- Ed.
      do 2 f_equal. f_equal. unfold u64v. change (2 ^ (8 * 8)) with 18446744073709551616. change (2 ^ 32) with 4294967296.
      Z.div_mod_to_equations; lia.
  - (* store *) destruct Hv as [Ho Hv].
    destruct (le32_u32v off) as (z0 & z1 & z2 & z3 & EL & EV).
    destruct Hv as [(-> & Hb & Hs)|[(-> & Hb & Hs)|(Hw & Hb & Hs)]].
    + assert (E : emit_of W (HStore W base off src) = mov_memory W 137 src base off W) by (destruct HW as [-> | ->]; reflexivity).
      rewrite E in *. destruct (sp_mov_memory W lab glab HW pos fs 137 src base off) as [E1 E2]; auto; [lia|].
      rewrite E1, EL in Hat. rewrite E2. cbn [meaning].
      destruct (reg_split W base HW Hb) as (_ & Mb & Eb & _), (reg_split W src HW Hs) as (_ & Ms & Es & _).
      destruct (rex_bytes W lab glab pos fs src base HW Hs Hb) as [_ Hok].
      rewrite (dec_store W _ _ _ _ f _ z0 z1 z2 z3 Hok Ms Mb Hat), <- Eb, <- Es, EV, s32_int by assumption. reflexivity.
    + cbn [emit_of meaning Z.eqb Pos.eqb] in *. unfold mov_mem8_reg in *.
      destruct (sp_mov_memory_n W lab glab pos fs 136 src base off 1) as [E1 E2]; [lia..|].
      rewrite E1, EL in Hat. rewrite E2. cbn [Z.eqb Pos.eqb app] in *.
      rewrite (dec_store8 W 0 0 src base f _ z0 z1 z2 z3 OK) by (try lia; exact Hat). rewrite EV, s32_int by assumption. reflexivity.
    + destruct Hw as [-> | ->]; cbn [emit_of meaning Z.eqb Pos.eqb] in *.
      * unfold mov_mem16_reg in *.
        destruct (sp_mov_memory_n W lab glab pos fs 137 src base off 2) as [E1 E2]; [lia..|].
        rewrite E1, EL in Hat. rewrite E2. cbn [Z.eqb Pos.eqb app] in *.
        rewrite (dec_store16 W 0 0 src base f _ z0 z1 z2 z3 OK) by (try lia; exact Hat). rewrite EV, s32_int by assumption. reflexivity.
      * unfold mov_mem32_reg in *.
        destruct (sp_mov_memory_n W lab glab pos fs 137 src base off 4) as [E1 E2]; [lia..|].
        rewrite E1, EL in Hat. rewrite E2. cbn [Z.eqb Pos.eqb app] in *.
        rewrite (dec_store32 W 0 0 src base f _ z0 z1 z2 z3 OK) by (try lia; exact Hat). rewrite EV, s32_int by assumption. reflexivity.
  - (* load *) destruct Hv as [Ho Hv].
    destruct (le32_u32v off) as (z0 & z1 & z2 & z3 & EL & EV).
    assert (HX : forall n, n = 1 \/ n = 2 -> is_reg W dst -> is_reg W base -> w = n ->
      decode W f (cb + pos) = Some (meaning W (disp_of lab (pos + ops_size W (emit_of W (HLoad sg w dst base off)))) (HLoad sg w dst base off),
        ops_size W (emit_of W (HLoad sg w dst base off)))).
    { intros n Hn Hd Hb ->. clear Hl.
      set (opc := 180 + 2 * n - (if n =? 1 then 0 else 1) + (if sg then 8 else 0)).
      assert (E : emit_of W (HLoad sg n dst base off) = mov_memory_extend W opc dst base off true).
      { unfold opc. destruct Hn as [-> | ->], sg; reflexivity. }
      assert (Hopc : 0 <= opc < 256) by (unfold opc; destruct Hn as [-> | ->], sg; cbn; lia).
      rewrite E in *. destruct (sp_extend W lab glab HW pos fs opc dst base off true) as [E1 E2]; auto.
      rewrite E1, EL in Hat. rewrite E2.
      destruct (reg_split W base HW Hb) as (_ & Mb & Eb & _), (reg_split W dst HW Hd) as (_ & Md & Ed & _).
      destruct (rex_bytes W lab glab pos fs dst base HW Hd Hb) as [_ Hok].
      rewrite (dec_loadx W _ _ _ _ f _ z0 z1 z2 z3 Hok Md Mb sg n Hn Hat), <- Eb, <- Ed, EV, s32_int by assumption.
      cbn [meaning]. destruct HW as [-> | ->], Hn as [-> | ->]; reflexivity. }
    destruct Hv as [(Hw & Hd & Hb & Hs)|(-> & HW8 & Hv)].
    + destruct Hw as [E|[E|E]]; [apply (HX 1); auto|apply (HX 2); auto|]. subst w.
      assert (E : emit_of W (HLoad sg W dst base off) = mov_memory W 139 dst base off W).
      { destruct HW as [-> | ->]; [|destruct sg; reflexivity]. rewrite Hs by reflexivity. reflexivity. }
      rewrite E in *. destruct (sp_mov_memory W lab glab HW pos fs 139 dst base off) as [E1 E2]; auto; [lia|].
      rewrite E1, EL in Hat. rewrite E2. cbn [meaning]. rewrite Z.eqb_refl.
      destruct (reg_split W base HW Hb) as (_ & Mb & Eb & _), (reg_split W dst HW Hd) as (_ & Ms & Es & _).
      destruct (rex_bytes W lab glab pos fs dst base HW Hd Hb) as [_ Hok].
      rewrite (dec_load W _ _ _ _ f _ z0 z1 z2 z3 Hok Ms Mb Hat), <- Eb, <- Es, EV, s32_int by assumption. reflexivity.
    + subst W. destruct sg.
      * destruct Hv as [Hd Hb]. cbn [emit_of Z.eqb Pos.eqb] in *. unfold mov_reg_mem32_sign_ext in *.
        destruct (sp_extend 8 lab glab HW pos fs 99 dst base off false) as [E1 E2]; auto; [lia|].
        rewrite E1, EL in Hat. rewrite E2.
        destruct (reg_split 8 base HW Hb) as (_ & Mb & Eb & _), (reg_split 8 dst HW Hd) as (_ & Md & Ed & _).
        destruct (rex_bytes 8 lab glab pos fs dst base HW Hd Hb) as [_ Hok].
        rewrite (dec_movsxd 8 _ _ _ _ f _ z0 z1 z2 z3 Hok Md Mb eq_refl Hat), <- Eb, <- Ed, EV, s32_int by assumption. reflexivity.
      * destruct Hv as [Hd Hb]. cbn [emit_of Z.eqb Pos.eqb] in *. unfold mov_reg_mem32 in *.
        destruct (sp_mov_memory_n 8 lab glab pos fs 139 dst base off 4) as [E1 E2]; [lia..|].
        rewrite E1, EL in Hat. rewrite E2. cbn [Z.eqb Pos.eqb app] in *.
        rewrite (dec_load32 8 0 0 dst base f _ z0 z1 z2 z3 OK) by (try lia; exact Hat). rewrite EV, s32_int by assumption. reflexivity.
  - (* imul *) destruct Hv as [Hd Hs]. cbn [emit_of meaning] in *. unfold imul_reg_reg in *.
    destruct (reg_split W dst HW Hd) as (Rd & Md & Ed & _), (reg_split W src HW Hs) as (Rs & Ms & Es & _).
    destruct (rex_bytes W lab glab pos fs dst src HW Hd Hs) as [E Hok].
    destruct (modrm_byte 3 dst src) as [M _]; [lia..|]. change (64 * 3) with 192 in M.
    rewrite !second_pass_app, E in Hat by nf. unfold mod_rm in *. rewrite !second_pass_B in Hat. cbn [map app] in Hat. rewrite M in Hat.
    rewrite !size_app, (size_rex W dst src (dst / 8) (src / 8) HW), !size_B.
    rewrite (dec_imul W _ _ _ _ f _ Hok Md Ms Hat), <- Ed, <- Es. reflexivity.
  - (* idiv *) cbn [emit_of meaning] in *. unfold idiv_reg in *.
    destruct (sp_slash W lab glab HW pos fs 0xf7 7 src) as [E1 E2]; [lia..|auto|]. rewrite E1 in Hat. rewrite E2.
    destruct (reg_split W src HW Hv) as (_ & Md & Ed & _). destruct (rex_bytes W lab glab pos fs 0 src HW R0 Hv) as [_ Hok].
    rewrite (dec_slash W _ _ _ f _ Hok Md 7) by (try lia; exact Hat). rewrite <- Ed. reflexivity.
  - (* div *) cbn [emit_of meaning] in *. unfold div_reg in *.
    destruct (sp_slash W lab glab HW pos fs 0xf7 6 src) as [E1 E2]; [lia..|auto|]. rewrite E1 in Hat. rewrite E2.
    destruct (reg_split W src HW Hv) as (_ & Md & Ed & _). destruct (rex_bytes W lab glab pos fs 0 src HW R0 Hv) as [_ Hok].
    rewrite (dec_slash W _ _ _ f _ Hok Md 6) by (try lia; exact Hat). rewrite <- Ed. reflexivity.
  - (* cdq *) cbn [emit_of meaning] in *. unfold cdq_cqo in *.
    destruct (rex_bytes W lab glab pos fs 0 0 HW R0 R0) as [E Hok]. rewrite second_pass_app, E, second_pass_B in Hat by nf.
    rewrite size_app, (size_rex W 0 0 0 0 HW), size_B. rewrite (dec_cdq W 0 0 f _ OK Hat). reflexivity.
  - (* shift *)
    assert (E : emit_of W (HShift k dst) = op_reg_slash_digit W 211 (shift_ext k) dst) by (destruct k; reflexivity).
    rewrite E in *. cbn [meaning].
    destruct (sp_slash W lab glab HW pos fs 211 (shift_ext k) dst) as [E1 E2]; [lia|destruct k; cbn; lia|auto|]. rewrite E1 in Hat. rewrite E2.
    destruct (reg_split W dst HW Hv) as (_ & Md & Ed & _). destruct (rex_bytes W lab glab pos fs 0 dst HW R0 Hv) as [_ Hok].
    rewrite (dec_shift W _ _ _ f _ Hok Md k Hat). rewrite <- Ed. reflexivity.
  - (* push *) cbn [emit_of meaning] in *. unfold push_reg in *. rewrite second_pass_B in Hat. cbn [map] in Hat. rewrite Z.mod_small in Hat by lia.
    rewrite (dec_push W 0 0 r f _ OK Hv Hat), size_B. reflexivity.
  - cbn [emit_of meaning] in *. unfold pop_reg in *. rewrite second_pass_B in Hat. cbn [map] in Hat. rewrite Z.mod_small in Hat by lia.
    rewrite (dec_pop W 0 0 r f _ OK Hv Hat), size_B. reflexivity.
  - (* jmp *) cbn [emit_of meaning] in *. unfold jump in *. destruct (Hl l eq_refl) as (a & La & Hr).
    rewrite second_pass_app, sp_use, La, second_pass_B in Hat by nf.
    match type of Hat with context [le32 ?x] => destruct (le32_u32v x) as (z0 & z1 & z2 & z3 & EL & EV); rewrite EL in Hat; set (dd := x) in * end.
    unfold disp_of. rewrite La.
    assert (a - (pos + ops_size W (B [0xe9] ++ [OUse l])) = dd) as Ed'.
    { unfold dd. rewrite !size_app, !size_B. cbn [ops_size op_size]. lia. }
    rewrite Ed' in *. rewrite (dec_jmp W 0 0 f _ z0 z1 z2 z3 OK Hat), EV, s32_int by assumption. reflexivity.
  - (* call *) cbn [emit_of meaning] in *. unfold call in *. destruct (Hl l eq_refl) as (a & La & Hr).
    rewrite second_pass_app, sp_use, La, second_pass_B in Hat by nf.
    match type of Hat with context [le32 ?x] => destruct (le32_u32v x) as (z0 & z1 & z2 & z3 & EL & EV); rewrite EL in Hat; set (dd := x) in * end.
    unfold disp_of. rewrite La.
    assert (a - (pos + ops_size W (B [0xe8] ++ [OUse l])) = dd) as Ed'.
    { unfold dd. rewrite !size_app, !size_B. cbn [ops_size op_size]. lia. }
    rewrite Ed' in *. rewrite (dec_call W 0 0 f _ z0 z1 z2 z3 OK Hat), EV, s32_int by assumption. reflexivity.
  - (* callr *) cbn [emit_of meaning] in *. unfold call_reg, mod_rm in *. rewrite second_pass_app, !second_pass_B in Hat by nf. cbn [map app] in Hat.
    destruct (modrm_byte 3 2 r) as [M _]; [lia..|]. change (64 * 3) with 192 in M. rewrite M in Hat.
    rewrite (Z.mod_small r) in Hat by lia. change (192 + 8 * (2 mod 8)) with 208 in Hat.
    rewrite (dec_callr W 0 0 r f _ OK Hv Hat). reflexivity.
  - (* ret *) cbn [emit_of meaning] in *. unfold ret in *. rewrite second_pass_B in Hat. rewrite (dec_ret W 0 0 f _ OK Hat). reflexivity.
  - (* jcc *) cbn [emit_of meaning] in *. unfold jump_cond in *. destruct (Hl l eq_refl) as (a & La & Hr).
    rewrite second_pass_app, sp_use, La, second_pass_B in Hat by nf. cbn [map app] in Hat. rewrite (Z.mod_small (0x80 + c)) in Hat by lia.
    match type of Hat with context [le32 ?x] => destruct (le32_u32v x) as (z0 & z1 & z2 & z3 & EL & EV); rewrite EL in Hat; set (dd := x) in * end.
    unfold disp_of. rewrite La.
    assert (a - (pos + ops_size W (B [0x0f; 0x80 + c] ++ [OUse l])) = dd) as Ed'.
    { unfold dd. rewrite !size_app, !size_B. cbn [ops_size op_size]. unfold zlen. cbn [length]. lia. }
    rewrite Ed' in *. rewrite (dec_jcc W 0 0 f _ z0 z1 z2 z3 OK c Hv Hat), EV, s32_int by assumption. reflexivity.
  - (* int *) cbn [emit_of meaning] in *. unfold int_i8 in *. rewrite second_pass_B in Hat. cbn [map] in Hat. rewrite (Z.mod_small n) in Hat by lia.
    rewrite (dec_int W 0 0 f _ n OK Hat). reflexivity.
  - (* syscall *) cbn [emit_of meaning] in *. unfold syscall_ in *. rewrite second_pass_B in Hat. rewrite (dec_syscall W 0 0 f _ OK Hv Hat). reflexivity.
Qed.
