(** * Running emitted code: helper calls and labels placed in memory, one rule per helper *)
From Coq Require Import ZArith List Lia Bool.
From Verif Require Import Base Asm AsmProof X86 X86Proof X86Sem.
Import ListNotations.
Open Scope Z_scope.

(** What the code generator does: calls an instruction helper of x86.c, or defines a label (exe.c:449). *)
Inductive hop := HC (h : hcall) | HD (l : Z).
Definition hops (W : Z) (l : list hop) : list aop :=
  flat_map (fun x => match x with HC h => emit_of W h | HD l => [ODef l] end) l.

(** Composite helpers of x86.c:382-440, as the helpers they call. *)
Definition h_div (op : hcall) (res : Z) (pre : hcall) (dst src : Z) : list hop :=
  [HC (HAlu Amov AX dst); HC pre; HC op; HC (HAlu Amov dst res)].
Definition h_idiv_reg_reg dst src := h_div (HIdiv src) AX HCdq dst src.
Definition h_irem_reg_reg dst src := h_div (HIdiv src) DX HCdq dst src.
Definition h_div_reg_reg dst src := h_div (HDiv src) AX (HMovImm DX 0) dst src.
Definition h_rem_reg_reg dst src := h_div (HDiv src) DX (HMovImm DX 0) dst src.
Definition h_shift (k : shft) (dst src : Z) : list hop := [HC (HAlu Amov CX src); HC (HShift k dst)].
Definition h_jump_cond_reg_reg (c l r1 r2 : Z) : list hop := [HC (HAlu Acmp r1 r2); HC (HJcc c l)].

(** They emit what the model of x86.c emits. *)
Lemma h_composite W d s :
  hops W (h_idiv_reg_reg d s) = idiv_reg_reg W d s /\ hops W (h_irem_reg_reg d s) = irem_reg_reg W d s /\
  hops W (h_div_reg_reg d s) = div_reg_reg W d s /\ hops W (h_rem_reg_reg d s) = rem_reg_reg W d s /\
  hops W (h_shift Shl d s) = s_l_reg_reg W d s /\ hops W (h_shift Sar d s) = sar_reg_reg W d s /\
  hops W (h_shift Shr d s) = shr_reg_reg W d s /\
  forall c l, hops W (h_jump_cond_reg_reg c l d s) = jump_cond_reg_reg W c l d s.
Proof.
  repeat split; intros; unfold hops, h_idiv_reg_reg, h_irem_reg_reg, h_div_reg_reg, h_rem_reg_reg, h_div, h_shift,
    h_jump_cond_reg_reg; cbn [flat_map emit_of]; rewrite ?app_nil_r; reflexivity.
Qed.

(** The comparison a condition code of x86.c stands for (spec). *)
Definition ccsem (W c a b : Z) : option bool :=
  if c =? EQ then Some (a =? b) else if c =? NE then Some (negb (a =? b))
  else if c =? LT then Some (sgn W a <? sgn W b) else if c =? LT_U then Some (a <? b)
  else if c =? GE then Some (sgn W b <=? sgn W a) else if c =? GE_U then Some (b <=? a)
  else if c =? LE then Some (sgn W a <=? sgn W b) else if c =? LE_U then Some (a <=? b)
  else if c =? GT then Some (sgn W b <? sgn W a) else if c =? GT_U then Some (b <? a) else None.

Lemma MODHALF W : W = 4 \/ W = 8 -> MOD W = 2 * HALF W /\ 0 < HALF W.
Proof. intros [-> | ->]; vm_compute; split; reflexivity. Qed.

Lemma cond_cc W c a b v : W = 4 \/ W = 8 -> 0 <= a < MOD W -> 0 <= b < MOD W ->
  ccsem W c a b = Some v -> cond c (cmp_flags W a b) = Some v.
Proof.
  intros HW Ha Hb. destruct (MODHALF W HW) as [HM Hp].
  assert (D : (a - b) mod MOD W = if a <? b then a - b + MOD W else a - b).
  { destruct (Z.ltb_spec a b).
    - replace (a - b) with (a - b + MOD W + (-1) * MOD W) at 1 by ring. rewrite Z.mod_add, Z.mod_small by lia. reflexivity.
    - rewrite Z.mod_small by lia. reflexivity. }
  unfold ccsem, EQ, NE, LT, LT_U, GE, GE_U, LE, LE_U, GT, GT_U.
  repeat match goal with |- context [c =? ?k] => destruct (Z.eqb_spec c k) as [-> | ?] end;
    intros E; try discriminate; injection E as <-;
    unfold cond, cmp_flags; cbn [zf sf oflag cf]; rewrite D;
    match goal with |- match (match ?x with _ => _ end) with _ => _ end = _ => let y := eval vm_compute in x in change x with y end;
    cbv iota;
    match goal with |- Some (if ?x then _ else _) = _ => let y := eval vm_compute in x in change x with y end;
    cbv iota; f_equal; unfold sgn; rewrite HM in *; set (h := HALF W) in *;
    bdestr; cbn [negb orb andb xorb]; try lia; reflexivity.
Qed.

Section N.
Variables (W slim cb : Z) (bytes : list Z) (lab : Z -> option Z).
Hypothesis HW : W = 4 \/ W = 8.

(** The program's bytes are in memory at [cb]. *)
Definition codeok (m : Z -> Z) : Prop := at_ m cb bytes.
Definition ilen (h : hcall) : Z := ops_size W (emit_of W h).
Definition hdec (p : Z) (h : hcall) : Prop := forall m, codeok m ->
  decode W m (cb + p) = Some (meaning W (disp_of lab (p + ilen h)) h, ilen h) /\
  (forall l, hlabel h = Some l -> lab l <> None) /\ 0 <= p /\ p + ilen h <= zlen bytes.
(** The code [l] is at offset [p] of the program, and its labels have their offsets. *)
Fixpoint placed (p : Z) (l : list hop) : Prop :=
  match l with
  | [] => True
  | HC h :: k => hdec p h /\ placed (p + ilen h) k
  | HD x :: k => lab x = Some p /\ placed p k
  end.
Fixpoint hsize (l : list hop) : Z :=
  match l with [] => 0 | HC h :: k => ilen h + hsize k | HD _ :: k => hsize k end.
Lemma placed_app a b : forall p, placed p (a ++ b) <-> placed p a /\ placed (p + hsize a) b.
Proof.
  induction a as [|[h|x] a IH]; intros p; cbn [app placed hsize].
  - rewrite Z.add_0_r. tauto.
  - rewrite IH. replace (p + (ilen h + hsize a)) with (p + ilen h + hsize a) by lia. tauto.
  - rewrite IH. tauto.
Qed.
Lemma hsize_app a b : hsize (a ++ b) = hsize a + hsize b.
Proof. induction a as [|[h|x] a IH]; cbn [app hsize]; lia. Qed.

Variable Q : mst -> Prop.
Notation wp := (wp W slim).
Notation MOD := (MOD W).

Lemma wp_h r m p f o i mp h : codeok m -> hdec p h ->
  match exec W slim (meaning W (disp_of lab (p + ilen h)) h) (MS r m (cb + (p + ilen h)) f o i mp) with
  | Next s' => wp Q s' | Over => True | _ => False end ->
  wp Q (MS r m (cb + p) f o i mp).
Proof.
  intros Hc Hd H. destruct (Hd m Hc) as [Hdec _].
  assert (St : step W slim (MS r m (cb + p) f o i mp) =
    exec W slim (meaning W (disp_of lab (p + ilen h)) h) (MS r m (cb + (p + ilen h)) f o i mp)).
  { unfold step. cbn [mm pc]. rewrite Hdec. unfold setpc. cbn [rg mm pc fl outp inp maps].
    replace (cb + p + ilen h) with (cb + (p + ilen h)) by lia. reflexivity. }
  destruct (exec _ _ _ _) as [s'| | |]; try contradiction.
  - eapply wp_next; eassumption.
  - now apply wp_over.
Qed.

Variables (m : Z -> Z) (p : Z) (f : option flags) (o i mp : list Z) (k : list hop).
Hypothesis Hc : codeok m.

Ltac go := match goal with P : placed _ (HC ?h :: _) |- _ => let Hdd := fresh in destruct P as [Hdd _]; eapply wp_h; [exact Hc|exact Hdd|] end;
  cbn [meaning exec]; unfold setr, setm, setpc, setfl; cbn [rg mm pc fl outp inp maps]; rewrite ?Z.eqb_refl.

Lemma wp_mov r d x : placed p (HC (HAlu Amov d x) :: k) ->
  wp Q (MS (upd r d (r x)) m (cb + (p + ilen (HAlu Amov d x))) f o i mp) -> wp Q (MS r m (cb + p) f o i mp).
Proof. intros P H. go. exact H. Qed.
Lemma wp_add r d x : placed p (HC (HAlu Aadd d x) :: k) ->
  wp Q (MS (upd r d ((r d + r x) mod MOD)) m (cb + (p + ilen (HAlu Aadd d x))) None o i mp) -> wp Q (MS r m (cb + p) f o i mp).
Proof. intros P H. go. exact H. Qed.
Lemma wp_sub r d x : placed p (HC (HAlu Asub d x) :: k) ->
  wp Q (MS (upd r d ((r d - r x) mod MOD)) m (cb + (p + ilen (HAlu Asub d x))) None o i mp) -> wp Q (MS r m (cb + p) f o i mp).
Proof. intros P H. go. exact H. Qed.
Lemma wp_and r d x : placed p (HC (HAlu Aand d x) :: k) ->
  wp Q (MS (upd r d (Z.land (r d) (r x))) m (cb + (p + ilen (HAlu Aand d x))) None o i mp) -> wp Q (MS r m (cb + p) f o i mp).
Proof. intros P H. go. exact H. Qed.
Lemma wp_or r d x : placed p (HC (HAlu Aor d x) :: k) ->
  wp Q (MS (upd r d (Z.lor (r d) (r x))) m (cb + (p + ilen (HAlu Aor d x))) None o i mp) -> wp Q (MS r m (cb + p) f o i mp).
Proof. intros P H. go. exact H. Qed.
Lemma wp_xor r d x : placed p (HC (HAlu Axor d x) :: k) ->
  wp Q (MS (upd r d (Z.lxor (r d) (r x))) m (cb + (p + ilen (HAlu Axor d x))) None o i mp) -> wp Q (MS r m (cb + p) f o i mp).
Proof. intros P H. go. exact H. Qed.
Lemma wp_imul r d x : placed p (HC (HImul d x) :: k) ->
  wp Q (MS (upd r d ((r d * r x) mod MOD)) m (cb + (p + ilen (HImul d x))) None o i mp) -> wp Q (MS r m (cb + p) f o i mp).
Proof. intros P H. go. exact H. Qed.
Lemma wp_movimm r d n : placed p (HC (HMovImm d n) :: k) ->
  wp Q (MS (upd r d (n mod MOD)) m (cb + (p + ilen (HMovImm d n))) f o i mp) -> wp Q (MS r m (cb + p) f o i mp).
Proof. intros P H. go. exact H. Qed.
Lemma wp_addimm r d n : placed p (HC (HAddImm d n) :: k) -> d <> 4 ->
  wp Q (MS (upd r d ((r d + n) mod MOD)) m (cb + (p + ilen (HAddImm d n))) None o i mp) -> wp Q (MS r m (cb + p) f o i mp).
Proof. intros P Hn H. go. destruct (Z.eqb_spec d 4); [contradiction|]. exact H. Qed.
(** Growing or shrinking the stack. *)
Lemma wp_growsp r n : placed p (HC (HAddImm 4 n) :: k) -> slim <= r 4 -> 0 <= slim -> r 4 + n < MOD ->
  (slim <= r 4 + n -> wp Q (MS (upd r 4 (r 4 + n)) m (cb + (p + ilen (HAddImm 4 n))) None o i mp)) ->
  wp Q (MS r m (cb + p) f o i mp).
Proof.
  intros P Hs Hl Hn H. go. change (4 =? 4) with true. cbn [andb].
  destruct (Z.ltb_spec n 0), (Z.ltb_spec (r 4 + n) slim); cbn [andb]; auto; try lia;
    rewrite Z.mod_small by lia; apply H; lia.
Qed.
Lemma wp_push r x : placed p (HC (HPush x) :: k) ->
  (slim <= r 4 - W -> wp Q (MS (upd r 4 (r 4 - W)) (wrb (Wn W) m (r 4 - W) (r x)) (cb + (p + ilen (HPush x))) f o i mp)) ->
  wp Q (MS r m (cb + p) f o i mp).
Proof. intros P H. go. destruct (Z.ltb_spec (r 4 - W) slim); [exact I|auto]. Qed.
Lemma wp_pop r x : placed p (HC (HPop x) :: k) -> 0 <= r 4 + W < MOD ->
  wp Q (MS (upd (upd r 4 (r 4 + W)) x (rd (Wn W) m (r 4))) m (cb + (p + ilen (HPop x))) f o i mp) ->
  wp Q (MS r m (cb + p) f o i mp).
Proof. intros P Hr H. go. rewrite Z.mod_small by lia. exact H. Qed.
Lemma wp_jump r l a : placed p (HC (HJump l) :: k) -> lab l = Some a ->
  wp Q (MS r m (cb + a) f o i mp) -> wp Q (MS r m (cb + p) f o i mp).
Proof.
  intros P Hl H. go. unfold disp_of. rewrite Hl.
  replace (cb + (p + ilen (HJump l)) + (a - (p + ilen (HJump l)))) with (cb + a) by lia. exact H.
Qed.
Lemma wp_call r l a : placed p (HC (HCall l) :: k) -> lab l = Some a ->
  (slim <= r 4 - W ->
   wp Q (MS (upd r 4 (r 4 - W)) (wrb (Wn W) m (r 4 - W) (cb + (p + ilen (HCall l)))) (cb + a) f o i mp)) ->
  wp Q (MS r m (cb + p) f o i mp).
Proof.
  intros P Hl H. go. destruct (Z.ltb_spec (r 4 - W) slim); [exact I|]. unfold disp_of. rewrite Hl.
  replace (cb + (p + ilen (HCall l)) + (a - (p + ilen (HCall l)))) with (cb + a) by lia. auto.
Qed.
Lemma wp_ret r : placed p (HC HRet :: k) -> 0 <= r 4 + W < MOD ->
  wp Q (MS (upd r 4 (r 4 + W)) m (rd (Wn W) m (r 4)) f o i mp) -> wp Q (MS r m (cb + p) f o i mp).
Proof. intros P Hr H. go. rewrite Z.mod_small by lia. exact H. Qed.
(** Loads and stores; the address does not wrap around. *)
Lemma wp_load r sg w d b off : placed p (HC (HLoad sg w d b off) :: k) ->
  w = 1 \/ w = 2 \/ w = 4 \/ w = W -> (w = 4 -> W = 4 -> sg = false) -> 0 <= r b + off < MOD -> bytes_ok m ->
  wp Q (MS (upd r d ((if sg then sgnn w (rd (Z.to_nat w) m (r b + off)) else rd (Z.to_nat w) m (r b + off)) mod MOD)) m
           (cb + (p + ilen (HLoad sg w d b off))) f o i mp) ->
  wp Q (MS r m (cb + p) f o i mp).
Proof.
  intros P Hw Hs Ha Hb H. go.
  pose proof (rd_range (Z.to_nat w) m (r b + off) Hb) as Rr.
  assert (Ew : w = 1 \/ w = 2 \/ w = 4 \/ w = 8) by lia.
  assert (E256 : 256 ^ Z.of_nat (Z.to_nat w) = 2 ^ (8 * w))
    by (destruct Ew as [-> | [-> | [-> | ->]]]; reflexivity).
  rewrite E256 in Rr.
  assert (Hle : 2 ^ (8 * w) <= MOD) by (unfold X86Sem.MOD; apply Z.pow_le_mono_r; destruct HW; lia).
  destruct (Z.eqb_spec w W) as [->|Hne].
  - cbn [exec]. rewrite Z.eqb_refl. cbn [orb]. rewrite (Z.mod_small (r b + off)) by lia.
    unfold setr. cbn [rg mm pc fl outp inp maps].
    assert (E : (if sg then sgnn W (rd (Z.to_nat W) m (r b + off)) else rd (Z.to_nat W) m (r b + off)) mod MOD
                = rd (Z.to_nat W) m (r b + off)).
    { destruct sg; [|apply Z.mod_small; unfold X86Sem.MOD; lia]. unfold sgnn.
      destruct (_ <=? _); [|apply Z.mod_small; unfold X86Sem.MOD; lia].
      fold MOD. rewrite <- (Z.mod_add _ 1) by (unfold X86Sem.MOD; lia). rewrite Z.mul_1_l, Z.sub_add.
      apply Z.mod_small. unfold X86Sem.MOD; lia. }
    rewrite E in H. exact H.
  - destruct (Z.eqb_spec w 4) as [->|Hn4]; cbn [andb].
    + destruct sg; cbn [negb].
      * cbn [exec]. rewrite Z.eqb_refl. rewrite (Z.mod_small (r b + off)) by lia. exact H.
      * cbn [exec]. rewrite orb_true_r. rewrite (Z.mod_small (r b + off)) by lia.
        rewrite (Z.mod_small (rd _ _ _)) in H by lia. exact H.
    + cbn [exec]. rewrite Z.eqb_refl. rewrite (Z.mod_small (r b + off)) by lia.
      destruct sg; [exact H|]. rewrite (Z.mod_small (rd _ _ _)) in H by lia. exact H.
Qed.
Lemma wp_store r w b off x : placed p (HC (HStore w b off x) :: k) -> 0 <= r b + off < MOD ->
  wp Q (MS r (wrb (Z.to_nat w) m (r b + off) (r x)) (cb + (p + ilen (HStore w b off x))) f o i mp) ->
  wp Q (MS r m (cb + p) f o i mp).
Proof. intros P Ha H. go. rewrite Z.mod_small by lia. exact H. Qed.
Lemma wp_cmp r x y : placed p (HC (HAlu Acmp x y) :: k) ->
  wp Q (MS r m (cb + (p + ilen (HAlu Acmp x y))) (Some (cmp_flags W (r x) (r y))) o i mp) -> wp Q (MS r m (cb + p) f o i mp).
Proof. intros P H. go. exact H. Qed.
Lemma wp_cdq r : placed p (HC HCdq :: k) ->
  wp Q (MS (upd r 2 (if HALF W <=? r 0 then MOD - 1 else 0)) m (cb + (p + ilen HCdq)) f o i mp) -> wp Q (MS r m (cb + p) f o i mp).
Proof. intros P H. go. exact H. Qed.
Lemma wp_idiv r x q : placed p (HC (HIdiv x) :: k) ->
  let n := sgn W (r 2) * MOD + r 0 in
  let d := sgn W (r x) in
  d <> 0 -> q = Z.quot n d -> - HALF W <= q < HALF W ->
  wp Q (MS (upd (upd r 0 (q mod MOD)) 2 (Z.rem n d mod MOD)) m (cb + (p + ilen (HIdiv x))) None o i mp) ->
  wp Q (MS r m (cb + p) f o i mp).
Proof.
  intros P n d Hd Hq Hr H. go. fold n d. destruct (Z.eqb_spec d 0); [contradiction|]. rewrite <- Hq.
  destruct (Z.leb_spec (- HALF W) q), (Z.ltb_spec q (HALF W)); cbn [andb]; try lia. exact H.
Qed.
Lemma wp_udiv r x : placed p (HC (HDiv x) :: k) -> r 2 = 0 -> 0 <= r 0 < MOD -> 0 < r x ->
  wp Q (MS (upd (upd r 0 (r 0 / r x)) 2 (r 0 mod r x)) m (cb + (p + ilen (HDiv x))) None o i mp) ->
  wp Q (MS r m (cb + p) f o i mp).
Proof.
  intros P H2 H0 Hx H. go. rewrite H2, Z.mul_0_l, Z.add_0_l.
  destruct (Z.eqb_spec (r x) 0); [lia|].
  assert (r 0 / r x <= r 0) by (apply Z.div_le_upper_bound; nia).
  destruct (Z.ltb_spec (r 0 / r x) MOD); [exact H|lia].
Qed.
Lemma wp_shift r kd d : placed p (HC (HShift kd d) :: k) ->
  let c := r 1 mod shift_count W in
  wp Q (MS (upd r d (match kd with Shl => (r d * 2 ^ c) mod MOD | Shr => r d / 2 ^ c | Sar => (sgn W (r d) / 2 ^ c) mod MOD end))
           m (cb + (p + ilen (HShift kd d))) None o i mp) ->
  wp Q (MS r m (cb + p) f o i mp).
Proof. intros P c H. go. exact H. Qed.
End N.

Lemma wp_jcc W slim cb bytes lab Q r m p fl0 o i mp k c l a : codeok cb bytes m ->
  placed W cb bytes lab p (HC (HJcc c l) :: k) -> lab l = Some a ->
  forall b, cond c fl0 = Some b ->
  wp W slim Q (MS r m (cb + (if b then a else p + ilen W (HJcc c l))) (Some fl0) o i mp) ->
  wp W slim Q (MS r m (cb + p) (Some fl0) o i mp).
Proof.
  intros Hc P Hl b Hb H. destruct P as [Hd _]. eapply wp_h; [exact Hc|exact Hd|].
  cbn [meaning exec]. unfold setpc. cbn [rg mm pc fl outp inp maps]. rewrite Hb. unfold disp_of. rewrite Hl.
  destruct b; [|exact H].
  replace (cb + (p + ilen W (HJcc c l)) + (a - (p + ilen W (HJcc c l)))) with (cb + a) by lia. exact H.
Qed.

(** ** Registers, memory and the stack *)
Ltac ru := repeat first
  [ rewrite upd_same
  | match goal with |- context [upd ?r ?a ?v ?b] => rewrite (upd_other r a v b) by (first [discriminate | lia | congruence]) end ].
Ltac ruin H := repeat first
  [ rewrite upd_same in H
  | match type of H with context [upd ?r ?a ?v ?b] => rewrite (upd_other r a v b) in H by (first [discriminate | lia | congruence]) end ].

Lemma codeok_wrb cb bytes n m a v : codeok cb bytes m -> a + Z.of_nat n <= cb \/ cb + zlen bytes <= a ->
  codeok cb bytes (wrb n m a v).
Proof.
  unfold codeok. intros H D. eapply at_ext; [|exact H]. intros x Hx. apply wrb_out. lia.
Qed.
Lemma Wn_W W : W = 4 \/ W = 8 -> Z.of_nat (Wn W) = W.
Proof. intros [-> | ->]; reflexivity. Qed.
Lemma pow256W W : W = 4 \/ W = 8 -> 256 ^ Z.of_nat (Wn W) = MOD W.
Proof. intros [-> | ->]; reflexivity. Qed.
Lemma rd_word_range W m a : W = 4 \/ W = 8 -> bytes_ok m -> 0 <= rd (Wn W) m a < MOD W.
Proof. intros HW H. rewrite <- (pow256W W HW). now apply rd_range. Qed.
Lemma rd_wrb_word W m a v : W = 4 \/ W = 8 -> rd (Wn W) (wrb (Wn W) m a v) a = v mod MOD W.
Proof. intros HW. rewrite <- (pow256W W HW). apply rd_wrb. Qed.
Lemma MOD_pos W : W = 4 \/ W = 8 -> 0 < MOD W.
Proof. intros [-> | ->]; reflexivity. Qed.
Lemma sgn_mod W v : W = 4 \/ W = 8 -> - HALF W <= v < HALF W -> sgn W (v mod MOD W) = v.
Proof.
  intros HW H. destruct (MODHALF W HW) as [HM Hp]. unfold sgn.
  destruct (Z.le_gt_cases 0 v).
  - rewrite Z.mod_small by lia. destruct (Z.leb_spec (HALF W) v); lia.
  - replace (v mod MOD W) with (v + MOD W).
    + destruct (Z.leb_spec (HALF W) (v + MOD W)); lia.
    + symmetry. rewrite <- (Z.mod_add v 1 (MOD W)) by lia. rewrite Z.mul_1_l. apply Z.mod_small. lia.
Qed.
Lemma sgn_range W v : W = 4 \/ W = 8 -> 0 <= v < MOD W -> - HALF W <= sgn W v < HALF W.
Proof. intros HW H. destruct (MODHALF W HW). unfold sgn. destruct (Z.leb_spec (HALF W) v); lia. Qed.
Lemma mod_sgn W v : W = 4 \/ W = 8 -> 0 <= v < MOD W -> sgn W v mod MOD W = v.
Proof.
  intros HW H. unfold sgn. destruct (_ <=? _); [|apply Z.mod_small; lia].
  rewrite <- (Z.mod_add _ 1) by (pose proof (MOD_pos W HW); lia). rewrite Z.mul_1_l, Z.sub_add. apply Z.mod_small; lia.
Qed.
