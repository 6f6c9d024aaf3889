(** * C32: the bytes emitted by an instruction helper decode to the operation requested *)
From Coq Require Import ZArith List Lia Bool.
From Verif Require Import Base Asm AsmProof X86 X86Proof.
Import ListNotations.
Open Scope Z_scope.

(** For both targets, every helper call [h] (any operation, registers and offsets allowed by [valid]), at every
    position [pos] of the code loaded at [cb]: decoding the bytes there with the manual's tables gives exactly
    the operation asked for, and its length is the number of bytes emitted. *)
Theorem c32_encoding (W : Z) (h : hcall) (lab : Z -> option Z) (glab : Z -> option (Z * Z)) (mem : Z -> Z) (cb pos fs : Z) :
  W = 4 \/ W = 8 -> valid W h ->
  (forall l, hlabel h = Some l -> exists a, lab l = Some a /\ int_range (a - (pos + ops_size W (emit_of W h)))) ->
  at_ mem (cb + pos) (second_pass W lab glab pos fs (emit_of W h)) ->
  decode W mem (cb + pos) =
    Some (meaning W (disp_of lab (pos + ops_size W (emit_of W h))) h, ops_size W (emit_of W h)).
Proof. intros. eapply helper_decodes; eassumption. Qed.

(** The restriction of [valid] to low registers is necessary: the helpers without REX prefix encode another
    operation when given a register of the extended set, for every such register. *)
Theorem c32_push_extended_refuted (r : Z) (lab : Z -> option Z) (glab : Z -> option (Z * Z)) (mem : Z -> Z) (pos fs : Z) :
  8 <= r < 16 -> at_ mem pos (second_pass 8 lab glab pos fs (push_reg r)) ->
  decode 8 mem pos = Some (IPop (r - 8), 1).
Proof.
  intros Hr H. unfold push_reg in H. rewrite second_pass_B in H. cbn [map] in H.
  rewrite Z.mod_small in H by lia. replace (80 + r) with (88 + (r - 8)) in H by lia.
  assert (OK : okbits 8 0 0) by (unfold okbits, bit; auto).
  apply (dec_pop 8 0 0 (r - 8) mem pos OK); [lia|exact H].
Qed.
Theorem c32_call_reg_extended_refuted (r : Z) (lab : Z -> option Z) (glab : Z -> option (Z * Z)) (mem : Z -> Z) (pos fs : Z) :
  8 <= r < 16 -> at_ mem pos (second_pass 8 lab glab pos fs (call_reg r)) ->
  decode 8 mem pos = Some (ICallR (r - 8), 2).
Proof.
  intros Hr H. unfold call_reg, mod_rm in H. rewrite second_pass_app, !second_pass_B in H by nf. cbn [map app] in H.
  assert (OK : okbits 8 0 0) by (unfold okbits, bit; auto).
  apply (dec_callr 8 0 0 (r - 8) mem pos OK); [lia|].
  destruct (modrm_byte 3 2 r) as [M _]; [lia..|]. change (64 * 3) with 192 in M. rewrite M in H.
  replace (r mod 8) with (r - 8) in H by (rewrite <- (Z.mod_small (r - 8) 8) by lia; rewrite Zminus_mod, Z_mod_same_full, Z.sub_0_r, Zmod_mod; reflexivity).
  exact H.
Qed.
(** A byte store from SP, BP, SI or DI without prefix is a store from AH, CH, DH or BH: not that register. *)
Theorem c32_store8_refuted (W b o s : Z) (lab : Z -> option Z) (glab : Z -> option (Z * Z)) (mem : Z -> Z) (pos fs : Z) :
  W = 4 \/ W = 8 -> 0 <= b < 8 -> 4 <= s < 8 ->
  at_ mem pos (second_pass W lab glab pos fs (mov_mem8_reg W b o s)) ->
  forall n, decode W mem pos <> Some (IStore 1 b o s, n).
Proof.
  intros HW Hb Hs H n E.
  destruct (sp_mov_memory_n W lab glab pos fs 136 s b o 1) as [E1 _]; [lia..|].
  unfold mov_mem8_reg in H. rewrite E1 in H. clear E1.
  unfold decode in E.
  assert (F : forall k v, nth_error ((if 1 =? 2 then [102] else []) ++ [136] ++ memb s b ++ le32 o) k = Some v ->
    (k < 15)%nat -> byte_of (window mem pos) (Z.of_nat k) = v).
  { intros k v Hk Hl. unfold byte_of. rewrite Nat2Z.id. unfold window.
    rewrite nth_indep with (d' := mem (pos + Z.of_nat 0)) by (rewrite map_length, seq_length; exact Hl).
    rewrite (map_nth (fun k => mem (pos + Z.of_nat k)) (seq 0 15) 0%nat k). rewrite seq_nth by exact Hl.
    rewrite Nat.add_0_l.
    assert (HL : nth_error ((if 1 =? 2 then [102] else []) ++ [136] ++ memb s b ++ le32 o) k <> None) by congruence.
    apply nth_error_Some in HL.
    rewrite (at_nth _ _ _ H) by (unfold zlen; lia). rewrite Nat2Z.id. now apply nth_error_nth. }
  assert (F0 : byte_of (window mem pos) 0 = 136) by (apply (F 0%nat); [reflexivity|lia]).
  set (m := 128 + 8 * s + b).
  assert (F1 : byte_of (window mem pos) 1 = m).
  { apply (F 1%nat); [|lia]. unfold memb. cbn [Z.eqb app nth_error]. destruct (b =? 4); reflexivity. }
  unfold decode0 in E. rewrite F0 in E. change (136 =? 102) with false in E. cbv iota zeta in E. rewrite F0 in E.
  change (136 / 16 =? 4) with false in E. rewrite andb_false_r in E. cbv iota zeta in E. rewrite F0 in E.
  change (0 + 1) with 1 in E. rewrite F1 in E.
  assert (M : mreg m = s) by (unfold mreg, m; Z.div_mod_to_equations; lia).
  rewrite M in E. cbn -[mem_operand Z.leb Z.add] in E. destruct (mem_operand _ _ _) as [[[b' d'] k']|]; [|discriminate].
  destruct (Z.leb_spec 4 (s + 0)); [discriminate|lia].
Qed.

(** Cases that meet the hypotheses: [mov rax, [r12-8]] needs both the REX and the SIB byte; a backward jump. *)
Example c32_example_sib :
  let bytes := second_pass 8 (fun _ => None) (fun _ => None) 0 0 (emit_of 8 (HLoad false 8 0 12 (-8))) in
  valid 8 (HLoad false 8 0 12 (-8)) /\ bytes = [73; 139; 132; 36; 248; 255; 255; 255] /\
  decode 8 (fun a => nth (Z.to_nat a) bytes 0) 0 = Some (ILoad 8 0 12 (-8), 8).
Proof. repeat split; cbn; try lia; unfold int_range; try lia. left. unfold is_reg. cbn. lia. Qed.
Example c32_example_jump :
  let lab := fun l => if l =? 7 then Some 3 else None in
  let bytes := second_pass 4 lab (fun _ => None) 10 0 (emit_of 4 (HJump 7)) in
  bytes = [233; 244; 255; 255; 255] /\ decode 4 (fun a => nth (Z.to_nat (a - 10)) bytes 0) 10 = Some (IJmp (-12), 5).
Proof. split; reflexivity. Qed.
