(** * C38: pointer arithmetic is scaled by the element size (exe.c:217-294) *)
From Coq Require Import ZArith List Lia Bool.
From Verif Require Import Base Asm AsmProof X86 X86Proof X86Sem NMach.
Import ListNotations.
Open Scope Z_scope.

(** x86.c:49-53. *)
Definition reg_X := 0. Definition reg_Y := 1. Definition reg_Z := 2. Definition reg_glo := 3. Definition reg_SP := 4.

(** exe.c:217-219 [is_power_of_2]. *)
Definition is_power_of_2 (n : Z) : bool := negb (n =? 0) && (Z.land n (n - 1) =? 0).
(** exe.c:221-228 [power_of_2_log]; an int is halved at most 31 times. *)
Fixpoint plog (fuel : nat) (n i : Z) : Z :=
  match fuel with O => i | S f => if 1 <? n then plog f (Z.quot n 2) (i + 1) else i end.
Definition power_of_2_log (n : Z) : Z := plog 31 n 0.

(** exe.c:230-246 [mul_for_pointer_arith]. *)
Fixpoint doublings (fuel : nat) (reg width : Z) : list hop :=
  match fuel with
  | O => []
  | S f => if 1 <? width then HC (HAlu Aadd reg reg) :: doublings f reg (Z.quot width 2) else []
  end.
Definition mul_for_pointer_arith (reg width : Z) : list hop :=
  let other := if reg =? reg_X then reg_Y else reg_X in
  if width =? 1 then []
  else if is_power_of_2 width then doublings 31 reg width
  else [HC (HPush other); HC (HMovImm other width); HC (HImul reg other); HC (HPop other)].

(** exe.c:248-294 [div_for_pointer_arith].  As in the C text, the second branch does not move the value into
    reg_X when it is elsewhere. *)
Definition div_for_pointer_arith (reg width : Z) : list hop :=
  if width =? 1 then []
  else
    let save := if reg =? reg_X then reg_Y else reg_X in
    let back := if reg =? reg_X then [HC (HPop reg_Y)] else [HC (HAlu Amov reg reg_X); HC (HPop reg_X)] in
    if is_power_of_2 width then
      [HC (HPush save)] ++ (if reg =? reg_X then [] else [HC (HAlu Amov reg_X reg)]) ++
      [HC (HMovImm reg_Y (power_of_2_log width))] ++ h_shift Sar reg_X reg_Y ++ back
    else
      [HC (HPush save); HC (HMovImm reg_Y width)] ++ h_div_reg_reg reg_X reg_Y ++ back.

(** ** Proofs *)
Lemma pow2_spec w : 1 <= w -> is_power_of_2 w = true -> exists e, 0 <= e /\ w = 2 ^ e.
Proof.
  intros Hw H. unfold is_power_of_2 in H. apply andb_true_iff in H as [_ H]. apply Z.eqb_eq in H.
  exists (Z.log2 w). split; [apply Z.log2_nonneg|].
  destruct (Z.log2_spec w ltac:(lia)) as [L U].
  destruct (Z.eq_dec w (2 ^ Z.log2 w)) as [E|E]; [exact E|exfalso].
  assert (Hb : Z.testbit (Z.land w (w - 1)) (Z.log2 w) = true).
  { rewrite Z.land_spec. rewrite Z.bit_log2 by lia. cbn [andb].
    assert (Z.log2 (w - 1) = Z.log2 w).
    { apply Z.log2_unique; [apply Z.log2_nonneg|]. lia. }
    rewrite <- H0. apply Z.bit_log2. destruct (Z.eq_dec w 1) as [->|]; [|lia]. exfalso. apply E. reflexivity. }
  rewrite H, Z.testbit_0_l in Hb. discriminate.
Qed.
Lemma quot2_pow e : 0 <= e -> Z.quot (2 ^ (e + 1)) 2 = 2 ^ e.
Proof.
  intros H. rewrite Z.quot_div_nonneg by (try apply Z.pow_nonneg; lia).
  rewrite Z.pow_add_r by lia. change (2 ^ 1) with 2. apply Z.div_mul. lia.
Qed.
Lemma plog_pow fuel : forall e i, 0 <= e <= Z.of_nat fuel -> plog fuel (2 ^ e) i = i + e.
Proof.
  induction fuel as [|f IH]; intros e i He; cbn [plog]; [lia|].
  destruct (Z.eq_dec e 0) as [->|Hn].
  - change (2 ^ 0) with 1. change (1 <? 1) with false. cbn iota. lia.
  - assert (1 < 2 ^ e) by (apply Z.pow_gt_1; lia). destruct (Z.ltb_spec 1 (2 ^ e)); [|lia].
    replace (2 ^ e) with (2 ^ (e - 1 + 1)) by (f_equal; lia). rewrite quot2_pow by lia. rewrite IH by lia. lia.
Qed.

Section P.
Variables (W slim cb : Z) (bytes : list Z) (lab : Z -> option Z).
Hypothesis HW : W = 4 \/ W = 8.
Notation placed := (placed W cb bytes lab).
Notation hsize := (hsize W).
Notation wp := (wp W slim).
Notation MOD := (MOD W).
Notation ilen := (ilen W).

Lemma doublings_ok Q fuel : forall e r m p f o i mp k reg, 0 <= e <= Z.of_nat fuel -> codeok cb bytes m ->
  0 <= r reg < MOD ->
  placed p (doublings fuel reg (2 ^ e) ++ k) ->
  (forall r' f', r' reg = (r reg * 2 ^ e) mod MOD -> (forall q, q <> reg -> r' q = r q) ->
     wp Q (MS r' m (cb + (p + hsize (doublings fuel reg (2 ^ e)))) f' o i mp)) ->
  wp Q (MS r m (cb + p) f o i mp).
Proof.
  induction fuel as [|fu IH]; intros e r m p f o i mp k reg He Hc Hr Hp H.
  - assert (e = 0) as -> by lia. cbn [doublings hsize] in *. rewrite Z.add_0_r in H. apply H; [|auto].
    change (2 ^ 0) with 1. rewrite Z.mul_1_r. symmetry. now apply Z.mod_small.
  - cbn [doublings] in *. destruct (Z.eq_dec e 0) as [->|Hn].
    + change (1 <? 2 ^ 0) with false in *. cbn iota in *. cbn [hsize] in *. rewrite Z.add_0_r in H. apply H; [|auto].
      change (2 ^ 0) with 1. rewrite Z.mul_1_r. symmetry. now apply Z.mod_small.
    + assert (1 < 2 ^ e) by (apply Z.pow_gt_1; lia). destruct (Z.ltb_spec 1 (2 ^ e)) as [_|]; [|lia].
      assert (E : Z.quot (2 ^ e) 2 = 2 ^ (e - 1)).
      { replace (2 ^ e) with (2 ^ (e - 1 + 1)) by (f_equal; lia). apply quot2_pow. lia. }
      rewrite E in *. cbn [app] in Hp. eapply wp_add; [exact Hc|exact Hp|].
      destruct Hp as [_ Hp].
      eapply IH; [|exact Hc| |exact Hp|]; [lia| |].
      * ru. apply Z.mod_pos_bound, MOD_pos, HW.
      * intros r' f' E1 E2. cbn [hsize] in H.
        rewrite <- Z.add_assoc. apply H.
        -- rewrite E1. ru. rewrite Z.mul_mod_idemp_l by (pose proof (MOD_pos W HW); lia).
           f_equal. replace (2 ^ e) with (2 * 2 ^ (e - 1)) by (rewrite <- Z.pow_succ_r by lia; f_equal; lia). ring.
        -- intros q Hq. rewrite E2 by assumption. apply upd_other. congruence.
Qed.

(** Code is not on the part of the stack that may be overwritten. *)
Definition sdis (sp : Z) : Prop := sp <= cb \/ cb + zlen bytes <= slim.

Definition regs_ok (r : Z -> Z) : Prop := forall q, 0 <= r q < MOD.
Lemma regs_upd r q v : regs_ok r -> 0 <= v < MOD -> regs_ok (upd r q v).
Proof. intros H Hv x. unfold upd. destruct (x =? q); auto. Qed.

Hypothesis Hslim : 0 <= slim.

Lemma codeok_push m a v : codeok cb bytes m -> slim <= a -> sdis (a + W) -> codeok cb bytes (wrb (Wn W) m a v).
Proof.
  intros H Ha [D|D]; apply codeok_wrb; auto; rewrite Wn_W by assumption; lia.
Qed.

(** [reg := reg * width], all else unchanged except below the stack pointer. *)
Lemma mul_ok Q r m p f o i mp k reg width :
  codeok cb bytes m -> bytes_ok m -> regs_ok r -> sdis (r 4) ->
  reg = reg_X \/ reg = reg_Y -> 1 <= width < 2 ^ 31 ->
  placed p (mul_for_pointer_arith reg width ++ k) ->
  (forall r' m' f', r' reg = (r reg * width) mod MOD -> (forall q, q <> reg -> r' q = r q) -> regs_ok r' ->
     bytes_ok m' -> codeok cb bytes m' -> (forall a, a < slim \/ a < r 4 - W \/ r 4 <= a -> m' a = m a) ->
     wp Q (MS r' m' (cb + (p + hsize (mul_for_pointer_arith reg width))) f' o i mp)) ->
  wp Q (MS r m (cb + p) f o i mp).
Proof.
  intros Hc Hb Hr Hs Hreg Hw Hp H. pose proof (MOD_pos W HW) as MP. unfold mul_for_pointer_arith in *.
  destruct (Z.eqb_spec width 1) as [->|Hn1].
  { cbn [app hsize] in *. rewrite Z.add_0_r in H. apply H; auto. rewrite Z.mul_1_r. symmetry. now apply Z.mod_small. }
  destruct (is_power_of_2 width) eqn:E2.
  { destruct (pow2_spec width ltac:(lia) E2) as (e & He & ->).
    assert (e < 31) by (apply (Z.pow_lt_mono_r_iff 2); lia).
    eapply doublings_ok; [|exact Hc| |exact Hp|]; [lia|apply Hr|].
    intros r' f' E1 E3. apply H; auto.
    intros q. destruct (Z.eq_dec q reg) as [->|Hq]; [rewrite E1; apply Z.mod_pos_bound; lia|rewrite E3 by assumption; apply Hr]. }
  set (ot := if reg =? reg_X then reg_Y else reg_X) in *.
  assert (Ho : ot <> reg /\ ot <> 4 /\ reg <> 4) by (unfold ot, reg_X, reg_Y in *; destruct Hreg as [-> | ->]; cbn; lia).
  destruct Ho as (Ho & Ho4 & Hr4). cbn [app] in Hp.
  eapply wp_push; [exact Hc|exact Hp|]. intros Hlim. destruct Hp as [_ Hp].
  assert (Hc' : codeok cb bytes (wrb (Wn W) m (r 4 - W) (r ot))).
  { apply codeok_push; auto. now rewrite Z.sub_add. }
  eapply wp_movimm; [exact Hc'|exact Hp|]. destruct Hp as [_ Hp].
  eapply wp_imul; [exact Hc'|exact Hp|]. destruct Hp as [_ Hp].
  eapply wp_pop; [exact Hc'|exact Hp| |].
  { ru. pose proof (Hr 4). destruct HW; lia. }
  cbn [hsize] in H.
  match goal with |- wp Q (MS ?r' ?m' (cb + ?x) ?f' o i mp) => 
    replace x with (p + (ilen (HPush ot) + (ilen (HMovImm ot width) + (ilen (HImul reg ot) + (ilen (HPop ot) + 0))))) by lia;
    apply (H r' m' f') end.
  - ru. rewrite Z.mul_mod_idemp_r by lia. reflexivity.
  - intros q Hq. unfold upd at 1. destruct (Z.eqb_spec q ot) as [->|Hqo].
    + ru. rewrite rd_wrb_word by assumption. apply Z.mod_small, Hr.
    + destruct (Z.eq_dec q 4) as [->|]; [ru; lia|]. ru. reflexivity.
  - pose proof (wrb_bytes (Wn W) m (r 4 - W) (r ot) Hb) as Hb'.
    apply regs_upd; [|apply rd_word_range; auto].
    apply regs_upd; [|ru; pose proof (Hr 4); destruct HW; lia].
    apply regs_upd; [|apply Z.mod_pos_bound; lia]. apply regs_upd; [|apply Z.mod_pos_bound; lia].
    apply regs_upd; auto. pose proof (Hr 4). destruct HW; lia.
  - now apply wrb_bytes.
  - exact Hc'.
  - intros a Ha. apply wrb_out. rewrite Wn_W by assumption. lia.
Qed.

(** [X := X / width] by an arithmetic shift for a power of two, an unsigned division otherwise. *)
Lemma div_ok Q r m p f o i mp k width :
  codeok cb bytes m -> bytes_ok m -> regs_ok r -> sdis (r 4) -> 1 <= width < 2 ^ 31 ->
  placed p (div_for_pointer_arith reg_X width ++ k) ->
  (forall r' m' f', r' reg_X = (if is_power_of_2 width then (sgn W (r reg_X) / width) mod MOD else r reg_X / width) ->
     (forall q, q <> reg_X -> q <> reg_Z -> r' q = r q) -> regs_ok r' ->
     bytes_ok m' -> codeok cb bytes m' -> (forall a, a < slim \/ a < r 4 - W \/ r 4 <= a -> m' a = m a) ->
     wp Q (MS r' m' (cb + (p + hsize (div_for_pointer_arith reg_X width))) f' o i mp)) ->
  wp Q (MS r m (cb + p) f o i mp).
Proof.
  intros Hc Hb Hr Hs Hw Hp H. pose proof (MOD_pos W HW) as MP. destruct (MODHALF W HW) as [HM HH].
  assert (MB : 2 ^ 31 < MOD) by (unfold X86Sem.MOD; destruct HW as [-> | ->]; reflexivity).
  unfold div_for_pointer_arith, reg_X, reg_Y, reg_Z in *. change (0 =? 0) with true in *. cbv iota in *.
  destruct (Z.eqb_spec width 1) as [->|Hn1].
  { cbn [app hsize] in *. rewrite Z.add_0_r in H. change (is_power_of_2 1) with true in H. cbv iota in H. apply H; auto.
    rewrite Z.div_1_r. symmetry. apply mod_sgn; auto. }
  assert (Hc' : slim <= r 4 - W -> codeok cb bytes (wrb (Wn W) m (r 4 - W) (r 1))).
  { intros. apply codeok_push; auto. now rewrite Z.sub_add. }
  pose proof (wrb_bytes (Wn W) m (r 4 - W) (r 1) Hb) as Hb'.
  pose proof (Hr 4) as H4. assert (WP : 0 < W) by (destruct HW; lia).
  destruct (is_power_of_2 width) eqn:E2.
  - unfold h_shift in *. cbn [app] in Hp.
    eapply wp_push; [exact Hc|exact Hp|]. intros Hlim. destruct Hp as [_ Hp]. specialize (Hc' Hlim).
    eapply wp_movimm; [exact Hc'|exact Hp|]. destruct Hp as [_ Hp].
    eapply wp_mov; [exact Hc'|exact Hp|]. destruct Hp as [_ Hp].
    eapply wp_shift; [exact Hc'|exact Hp|]. destruct Hp as [_ Hp].
    eapply wp_pop; [exact Hc'|exact Hp|ru; lia|].
    destruct (pow2_spec width ltac:(lia) E2) as (e & He & ->).
    assert (e < 31) by (apply (Z.pow_lt_mono_r_iff 2); lia).
    unfold power_of_2_log in *. rewrite plog_pow in * by lia. rewrite Z.add_0_l in *.
    assert (SC : e mod MOD mod shift_count W = e).
    { rewrite (Z.mod_small e) by lia. apply Z.mod_small. unfold shift_count. destruct (W =? 8); lia. }
    cbn [hsize app] in H.
    match goal with |- wp Q (MS ?r' ?m' (cb + ?x) ?f' o i mp) =>
      match type of H with forall r m f, _ -> _ -> _ -> _ -> _ -> _ -> wp Q (MS _ _ (cb + ?y) _ _ _ _) =>
        replace x with y by lia end;
      apply (H r' m' f') end.
    + change CX with 1. ru. rewrite SC. reflexivity.
    + intros q Hq Hq2. change CX with 1. unfold upd at 1. destruct (Z.eqb_spec q 1) as [->|Hqo].
      * ru. rewrite rd_wrb_word by assumption. apply Z.mod_small, Hr.
      * destruct (Z.eq_dec q 4) as [->|]; [ru; lia|]. ru. reflexivity.
    + change CX with 1. repeat (apply regs_upd; [|first [apply rd_word_range; assumption|apply Z.mod_pos_bound; lia|ru; lia|ru; apply Z.mod_pos_bound; lia]]).
      exact Hr.
    + exact Hb'.
    + exact Hc'.
    + intros a Ha. apply wrb_out. rewrite Wn_W by assumption. lia.
  - unfold h_div_reg_reg, h_div in *. change AX with 0 in *. change DX with 2 in *. cbn [app] in Hp.
    eapply wp_push; [exact Hc|exact Hp|]. intros Hlim. destruct Hp as [_ Hp]. specialize (Hc' Hlim).
    eapply wp_movimm; [exact Hc'|exact Hp|]. destruct Hp as [_ Hp].
    eapply wp_mov; [exact Hc'|exact Hp|]. destruct Hp as [_ Hp].
    eapply wp_movimm; [exact Hc'|exact Hp|]. destruct Hp as [_ Hp].
    eapply wp_udiv; [exact Hc'|exact Hp|ru; reflexivity|ru; apply Hr|ru; rewrite Z.mod_small by lia; lia|]. destruct Hp as [_ Hp].
    eapply wp_mov; [exact Hc'|exact Hp|]. destruct Hp as [_ Hp].
    eapply wp_pop; [exact Hc'|exact Hp|ru; lia|].
    cbn [hsize app] in H.
    match goal with |- wp Q (MS ?r' ?m' (cb + ?x) ?f' o i mp) =>
      match type of H with forall r m f, _ -> _ -> _ -> _ -> _ -> _ -> wp Q (MS _ _ (cb + ?y) _ _ _ _) =>
        replace x with y by lia end;
      apply (H r' m' f') end.
    + ru. rewrite (Z.mod_small width) by lia. reflexivity.
    + intros q Hq Hq2. unfold upd at 1. destruct (Z.eqb_spec q 1) as [->|Hqo].
      * ru. rewrite rd_wrb_word by assumption. apply Z.mod_small, Hr.
      * destruct (Z.eq_dec q 4) as [->|]; [ru; lia|]. ru. reflexivity.
    + assert (D : 0 <= r 0 / (width mod MOD) < MOD).
      { rewrite (Z.mod_small width) by lia. pose proof (Hr 0). split; [apply Z.div_pos; lia|].
        apply Z.le_lt_trans with (r 0); [apply Z.div_le_upper_bound; nia|lia]. }
      assert (D2 : 0 <= r 0 mod (width mod MOD) < MOD).
      { rewrite (Z.mod_small width) by lia. pose proof (Z.mod_pos_bound (r 0) width). lia. }
      apply regs_upd; [|apply rd_word_range; assumption]. apply regs_upd; [|ru; lia].
      apply regs_upd; [|ru; exact D]. apply regs_upd; [|ru; exact D2]. apply regs_upd; [|ru; exact D].
      apply regs_upd; [|apply Z.mod_pos_bound; lia]. apply regs_upd; [|ru; apply Hr].
      apply regs_upd; [|apply Z.mod_pos_bound; lia]. apply regs_upd; auto. lia.
    + exact Hb'.
    + exact Hc'.
    + intros a Ha. apply wrb_out. rewrite Wn_W by assumption. lia.
Qed.
End P.
