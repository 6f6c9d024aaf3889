(** * C38: pointer arithmetic is scaled by the element size; C32: division and comparison sequences *)
From Coq Require Import ZArith List Lia Bool.
From Verif Require Import Base Asm AsmProof X86 X86Proof X86Sem NMach NLink NPtr.
Import ListNotations.
Open Scope Z_scope.

(** The bytes of a label-free piece of generated code are at address [cb]. *)
Definition loaded (W cb : Z) (mem : Z -> Z) (code : list hop) : Prop :=
  at_ mem cb (second_pass W (fun _ => None) (fun _ => None) 0 0 (hops W code)).
(** A machine about to execute [code], with its stack in [[slim, sp)] apart from the code. *)
Record ready (W slim cb : Z) (code : list hop) (s : mst) : Prop := {
  rd_w : W = 4 \/ W = 8;
  rd_slim : 0 <= slim;
  rd_regs : forall q, 0 <= rg s q < MOD W;
  rd_mem : bytes_ok (mm s);
  rd_code : loaded W cb (mm s) code;
  rd_pc : pc s = cb;
  rd_dis : rg s 4 <= cb \/ cb + ops_size W (hops W code) <= slim }.
(** The code has been executed: registers other than [touched] and memory outside the word below the stack
    pointer are as before, and so are input and output. *)
Definition done (W cb : Z) (code : list hop) (touched : list Z) (s s' : mst) : Prop :=
  pc s' = cb + ops_size W (hops W code) /\ (forall q, ~ In q touched -> rg s' q = rg s q) /\
  (forall a, a < rg s 4 - W \/ rg s 4 <= a -> mm s' a = mm s a) /\
  outp s' = outp s /\ inp s' = inp s /\ maps s' = maps s.

(** An encodable call without label. *)
Definition okc (W : Z) (x : hop) : Prop := match x with HC h => valid W h /\ hlabel h = None | HD _ => False end.
Lemma labs_at_nolab W lab l p : (forall x, ~ In (HD x) l) -> labs_at W lab p l.
Proof.
  revert p. induction l as [|[h|x] l IH]; intros p H; cbn [labs_at]; [exact I| |].
  - apply IH. intros x Hx. apply (H x). now right.
  - exfalso. apply (H x). now left.
Qed.
Lemma placed_loaded W cb (code : list hop) : W = 4 \/ W = 8 ->
  (forall x, ~ In (HD x) code) -> Forall (okc W) code ->
  hsize W code <= 2147483647 ->
  placed W cb (second_pass W (fun _ => None) (fun _ => None) 0 0 (hops W code)) (fun _ => None) 0 code.
Proof.
  intros HW Hn Hv Hs. eapply placed_link with (glab := fun _ => None) (pre := []) (post := []) (fs := 0); auto.
  - eapply Forall_impl; [|exact Hv]. intros [h|x]; cbn; [|contradiction]. intros [H1 H2]. split; [exact H1|]. intros l E. congruence.
  - now apply labs_at_nolab.
  - discriminate.
  - now rewrite app_nil_r.
Qed.
Lemma loaded_len W code : Forall (okc W) code ->
  zlen (second_pass W (fun _ => None) (fun _ => None) 0 0 (hops W code)) = ops_size W (hops W code).
Proof.
  intros H. apply (plain_len W (fun _ => None) (fun _ => None) None); [|discriminate].
  induction H as [|[h|x] l Hx H IH]; cbn [hops flat_map]; [constructor| |destruct Hx]. destruct Hx as [_ Hx].
  apply plain_app; [|exact IH]. rewrite <- Hx. apply plain_emit.
Qed.

Lemma valid_doublings W fuel reg w : W = 4 \/ W = 8 -> reg = reg_X \/ reg = reg_Y ->
  Forall (okc W) (doublings fuel reg w) /\
  hsize W (doublings fuel reg w) <= 3 * Z.of_nat fuel.
Proof.
  intros HW Hr. revert w. induction fuel as [|f IH]; intros w; cbn [doublings]; [split; [constructor|cbn; lia]|].
  destruct (1 <? w); [|split; [constructor|cbn [hsize]; lia]].
  destruct (IH (Z.quot w 2)) as [H1 H2]. split.
  - constructor; [|exact H1]. cbn. unfold is_reg, reg_X, reg_Y in *. destruct HW as [-> | ->], Hr as [-> | ->]; cbn; repeat split; lia.
  - cbn [hsize]. assert (ilen W (HAlu Aadd reg reg) <= 3); [|lia].
    unfold reg_X, reg_Y in *. destruct HW as [-> | ->], Hr as [-> | ->]; vm_compute; discriminate.
Qed.
Ltac vld := cbn; unfold is_reg, int_range, reg_X, reg_Y, AX, CX, DX in *; cbn; repeat split; try lia; auto.
Lemma valid_mul W reg width : W = 4 \/ W = 8 -> reg = reg_X \/ reg = reg_Y -> 1 <= width < 2 ^ 31 ->
  Forall (okc W) (mul_for_pointer_arith reg width) /\
  hsize W (mul_for_pointer_arith reg width) <= 200.
Proof.
  intros HW Hr Hw. unfold mul_for_pointer_arith. destruct (width =? 1); [split; [constructor|cbn; lia]|].
  destruct (is_power_of_2 width).
  - destruct (valid_doublings W 31 reg width HW Hr) as [H1 H2]. split; [exact H1|lia].
  - split.
    + destruct HW as [-> | ->], Hr as [-> | ->]; repeat apply Forall_cons; try apply Forall_nil; vld.
    + cbn [hsize]. destruct HW as [-> | ->], Hr as [-> | ->]; cbn -[Z.mul]; lia.
Qed.

Lemma valid_div W width : W = 4 \/ W = 8 -> 1 <= width < 2 ^ 31 ->
  Forall (okc W) (div_for_pointer_arith reg_X width) /\ hsize W (div_for_pointer_arith reg_X width) <= 200.
Proof.
  intros HW Hw. unfold div_for_pointer_arith. destruct (width =? 1); [split; [constructor|cbn; lia]|].
  destruct (is_power_of_2 width) eqn:E2.
  - destruct (pow2_spec width ltac:(lia) E2) as (e & He & ->).
    assert (e < 31) by (apply (Z.pow_lt_mono_r_iff 2); lia).
    unfold power_of_2_log. rewrite plog_pow by lia. rewrite Z.add_0_l.
    change (reg_X =? reg_X) with true. cbv iota. unfold h_shift. cbn [app].
    split.
    + destruct HW as [-> | ->]; repeat apply Forall_cons; try apply Forall_nil; vld.
    + destruct HW as [-> | ->]; cbn -[Z.mul]; lia.
  - change (reg_X =? reg_X) with true. cbv iota. unfold h_div_reg_reg, h_div. cbn [app]. split.
    + destruct HW as [-> | ->]; repeat apply Forall_cons; try apply Forall_nil; vld.
    + destruct HW as [-> | ->]; cbn -[Z.mul]; lia.
Qed.
Lemma okc_nolab W code : Forall (okc W) code -> forall x, ~ In (HD x) code.
Proof. intros H x Hx. rewrite Forall_forall in H. exact (H _ Hx). Qed.

(** [reg] holds an integer to add to a pointer to elements of [width] bytes: afterwards it holds the integer
    times [width], modulo the word size, and nothing else has changed. *)
Theorem c38_scale (W slim cb reg width : Z) (s : mst) :
  reg = reg_X \/ reg = reg_Y -> 1 <= width < 2 ^ 31 ->
  ready W slim cb (mul_for_pointer_arith reg width) s ->
  wp W slim (fun s' => rg s' reg = (rg s reg * width) mod MOD W /\
                       done W cb (mul_for_pointer_arith reg width) [reg] s s') s.
Proof.
  intros Hr Hw R. destruct R as [HW Hl Hregs Hm Hc Hpc Hd].
  destruct (valid_mul W reg width HW Hr Hw) as [Hv Hs].
  pose proof (loaded_len W _ Hv) as Len.
  set (code := mul_for_pointer_arith reg width) in *.
  set (bytes := second_pass W (fun _ => None) (fun _ => None) 0 0 (hops W code)) in *.
  assert (P : placed W cb bytes (fun _ => None) 0 code).
  { apply placed_loaded; auto; [apply okc_nolab with W; assumption|lia]. }
  destruct s as [r m p0 f o i mp]. cbn [rg mm pc outp inp maps] in *. subst p0.
  rewrite <- (Z.add_0_r cb). eapply mul_ok with (reg := reg) (width := width) (k := []); eauto.
  - unfold sdis. fold code bytes. rewrite Len. exact Hd.
  - fold code. rewrite app_nil_r. exact P.
  - intros r' m' f' E1 E2 E3 E4 E5 E6. apply wp_now. cbn [rg mm pc outp inp maps]. split; [exact E1|].
    unfold done. cbn [rg mm pc outp inp maps]. split; [unfold code; rewrite hsize_ops; lia|]. split; [|auto].
    intros q Hq. apply E2. intros ->. apply Hq. now left.
Qed.

(** X and Y hold pointers to elements [i] and [j] of an array of elements of [width] bytes at [base]; the array
    does not wrap around and spans less than half the address space. *)
Record two_pointers (W base width i j : Z) (s : mst) : Prop := {
  tp_width : 1 <= width < 2 ^ 31;
  tp_x : rg s reg_X = base + i * width;
  tp_y : rg s reg_Y = base + j * width;
  tp_span : - HALF W <= (i - j) * width < HALF W }.
Definition ptr_sub_code (width : Z) : list hop := HC (HAlu Asub reg_X reg_Y) :: div_for_pointer_arith reg_X width.

Lemma ptr_sub_run W slim cb width i j base s : ready W slim cb (ptr_sub_code width) s -> two_pointers W base width i j s ->
  wp W slim (fun s' =>
    rg s' reg_X = (if is_power_of_2 width then (i - j) mod MOD W else (((i - j) * width) mod MOD W) / width) /\
    done W cb (ptr_sub_code width) [reg_X; reg_Z] s s') s.
Proof.
  intros R [Hw Hx Hy Hsp]. destruct R as [HW Hl Hregs Hm Hc Hpc Hd].
  destruct (valid_div W width HW Hw) as [Hv Hs].
  assert (Hv' : Forall (okc W) (ptr_sub_code width)).
  { constructor; [|exact Hv]. destruct HW as [-> | ->]; vld. }
  assert (Hs' : hsize W (ptr_sub_code width) <= 203).
  { unfold ptr_sub_code. cbn [hsize]. assert (ilen W (HAlu Asub reg_X reg_Y) <= 3) by (destruct HW as [-> | ->]; vm_compute; discriminate). lia. }
  pose proof (loaded_len W _ Hv') as Len.
  set (bytes := second_pass W (fun _ => None) (fun _ => None) 0 0 (hops W (ptr_sub_code width))) in *.
  assert (P : placed W cb bytes (fun _ => None) 0 (ptr_sub_code width)).
  { apply placed_loaded; auto; [apply okc_nolab with W; assumption|lia]. }
  destruct s as [r m p0 f o ip mp]. cbn [rg mm pc outp inp maps] in *. subst p0.
  unfold ptr_sub_code in P. rewrite <- (Z.add_0_r cb). eapply wp_sub; [exact Hc|exact P|]. destruct P as [_ P].
  eapply div_ok with (width := width) (k := []); eauto.
  - now apply regs_upd; [exact Hregs|apply Z.mod_pos_bound, MOD_pos].
  - unfold sdis. fold bytes. rewrite Len. ru. exact Hd.
  - rewrite app_nil_r. exact P.
  - intros r' m' f' E1 E2 E3 E4 E5 E6. apply wp_now. cbn [rg mm pc outp inp maps].
    ruin E1. assert (Ex : r reg_X - r reg_Y = (i - j) * width) by (rewrite Hx, Hy; ring).
    split.
    + rewrite E1, Ex. destruct (is_power_of_2 width); [|reflexivity].
      rewrite sgn_mod by assumption. rewrite Z.div_mul by lia. reflexivity.
    + unfold done. cbn [rg mm pc outp inp maps]. split; [unfold ptr_sub_code; rewrite hsize_ops; cbn [hsize]; lia|].
      split; [|split; [|auto]].
      * intros q Hq. rewrite E2; [apply upd_other|..]; intros ->; apply Hq; cbn; auto.
      * intros a Ha. apply E6. ru. auto.
Qed.

(** Subtracting two pointers into the same array gives the distance in elements: when the element size is a power
    of two, or when the result is not negative.  (Otherwise it does not: [c38_distance_negative_refuted].) *)
Theorem c38_distance_partial (W slim cb width i j base : Z) (s : mst) :
  ready W slim cb (ptr_sub_code width) s -> two_pointers W base width i j s ->
  (exists e, width = 2 ^ e) \/ j <= i ->
  wp W slim (fun s' => rg s' reg_X = (i - j) mod MOD W /\ done W cb (ptr_sub_code width) [reg_X; reg_Z] s s') s.
Proof.
  intros R T H. eapply wp_mono; [eapply ptr_sub_run; eassumption|]. intros s' [E D]. split; [|exact D].
  rewrite E. destruct (is_power_of_2 width) eqn:E2; [reflexivity|]. destruct T as [Hw _ _ Hsp]. pose proof (rd_w _ _ _ _ _ R) as HW.
  destruct (MODHALF W HW) as [HM HP]. destruct H as [[e ->]|H].
  - exfalso. assert (is_power_of_2 (2 ^ e) = true); [|congruence].
    destruct (Z.lt_ge_cases e 0); [rewrite Z.pow_neg_r in Hw by assumption; lia|].
    unfold is_power_of_2. apply andb_true_iff. split; [apply negb_true_iff, Z.eqb_neq; lia|].
    apply Z.eqb_eq. replace (2 ^ e - 1) with (Z.ones e) by (rewrite Z.ones_equiv; lia).
    rewrite Z.land_ones by assumption. apply Z.mod_same. lia.
  - assert (0 <= (i - j)) by lia. rewrite (Z.mod_small ((i - j) * width)) by nia. rewrite Z.div_mul by lia.
    symmetry. apply Z.mod_small. nia.
Qed.

(** A negative distance is always wrong for any other element size: for every array, width and pair of elements. *)
Theorem c38_distance_negative_refuted (W slim cb width i j base : Z) (s : mst) :
  ready W slim cb (ptr_sub_code width) s -> two_pointers W base width i j s ->
  (forall e, width <> 2 ^ e) -> i < j ->
  wp W slim (fun s' => rg s' reg_X <> (i - j) mod MOD W /\ done W cb (ptr_sub_code width) [reg_X; reg_Z] s s') s.
Proof.
  intros R T Hn H. eapply wp_mono; [eapply ptr_sub_run; eassumption|]. intros s' [E D]. split; [|exact D].
  rewrite E. destruct T as [Hw _ _ Hsp]. pose proof (rd_w _ _ _ _ _ R) as HW.
  destruct (is_power_of_2 width) eqn:E2.
  - destruct (pow2_spec width ltac:(lia) E2) as (e & _ & X). exfalso. exact (Hn e X).
  - destruct (MODHALF W HW) as [HM HP]. pose proof (MOD_pos W HW).
    assert (width <> 1) by (apply (Hn 0)). assert (width <> 2) by (apply (Hn 1)).
    assert (forall v, - MOD W <= v < 0 -> v mod MOD W = v + MOD W) as N.
    { intros v Hv. rewrite <- (Z.mod_add v 1) by lia. rewrite Z.mul_1_l. apply Z.mod_small. lia. }
    rewrite !N by nia. intros X.
    assert (((i - j) * width + MOD W) / width <= MOD W / 3 + (i - j)); [|].
    { rewrite Z.add_comm, Z.div_add by lia. assert (MOD W / width <= MOD W / 3); [|lia].
      apply Z.div_le_compat_l; lia. }
    assert (MOD W / 3 < MOD W) by (apply Z.div_lt; lia). lia.
Qed.

(** ** Examples *)
(** Run [n] instructions. *)
Fixpoint runs (W slim : Z) (n : nat) (s : mst) : outcome :=
  match n with O => Next s | S k => match step W slim s with Next s' => runs W slim k s' | o => o end end.
Definition img (W cb : Z) (code : list hop) : Z -> Z :=
  let bs := second_pass W (fun _ => None) (fun _ => None) 0 0 (hops W code) in
  fun a => if (cb <=? a) && (a <? cb + zlen bs) then nth (Z.to_nat (a - cb)) bs 0 else 0.
Definition st0 (W cb x y : Z) (code : list hop) : mst :=
  MS (fun q => if q =? 0 then x else if q =? 1 then y else if q =? 4 then 4096 else 7) (img W cb code) cb None [] [] [].

Lemma at_img bs : forall cb f, (forall k, (k < length bs)%nat -> f (cb + Z.of_nat k) = nth k bs 0) -> at_ f cb bs.
Proof.
  induction bs as [|b bs IH]; intros cb f H; cbn [at_]; [exact I|]. split.
  - specialize (H O). cbn [length nth] in H. rewrite Z.add_0_r in H. apply H. lia.
  - apply IH. intros k Hk. specialize (H (S k)). cbn [length nth] in H.
    replace (cb + 1 + Z.of_nat k) with (cb + Z.of_nat (S k)) by lia. apply H. lia.
Qed.
Lemma img_loaded W cb code : loaded W cb (img W cb code) code.
Proof.
  unfold loaded, img. apply at_img. intros k Hk.
  assert (Z.of_nat k < zlen (second_pass W (fun _ => None) (fun _ => None) 0 0 (hops W code))) by (unfold zlen; lia).
  destruct (Z.leb_spec cb (cb + Z.of_nat k)), (Z.ltb_spec (cb + Z.of_nat k) (cb + zlen (second_pass W (fun _ => None) (fun _ => None) 0 0 (hops W code)))); try lia.
  cbn [andb]. f_equal. lia.
Qed.
(** The hypotheses are met: elements of 12 bytes, subtracting element 5 from element 2; and what the machine does. *)
Example c38_example :
  let code := ptr_sub_code 12 in
  let s := st0 8 65536 (10000 + 2 * 12) (10000 + 5 * 12) code in
  ready 8 1024 65536 code s /\ two_pointers 8 10000 12 2 5 s /\
  (match runs 8 1024 8 s with Next s' => (pc s' =? 65536 + ops_size 8 (hops 8 code)) && (rg s' reg_X =? 1537228672809129298) | _ => false end) = true /\
  (match runs 8 1024 8 (st0 8 65536 (10000 + 5 * 12) (10000 + 2 * 12) code) with Next s' => rg s' reg_X =? 3 | _ => false end) = true.
Proof.
  cbv zeta. split; [|split; [|split; vm_compute; reflexivity]].
  - split; cbn [rg mm pc st0]; try lia; try apply img_loaded.
    + intros q. unfold MOD. destruct (q =? 0), (q =? 1), (q =? 4); lia.
    + unfold img. set (bs := second_pass _ _ _ _ _ _). intros a.
      destruct ((65536 <=? a) && (a <? 65536 + zlen bs)); [|lia].
      assert (F : Forall (fun b => 0 <= b < 256) bs).
      { assert (forallb (fun b => (0 <=? b) && (b <? 256)) bs = true) by (vm_compute; reflexivity).
        apply Forall_forall. intros b Hb. rewrite forallb_forall in H. specialize (H b Hb). lia. }
      destruct (Nat.lt_ge_cases (Z.to_nat (a - 65536)) (length bs)).
      * rewrite Forall_forall in F. apply F, nth_In. assumption.
      * rewrite nth_overflow by lia. lia.
    + left. vm_compute. discriminate.
  - split; vm_compute; intuition congruence.
Qed.

(** ** C32: division and comparison sequences *)
(** The quotient and remainder sequences compute C's truncated division of the signed readings, and the unsigned
    ones that of the unsigned readings, in any destination other than the stack pointer and any divisor register
    that survives the moves into AX and DX. *)
Definition div_code (signed rem : bool) (dst src : Z) : list hop :=
  match signed, rem with
  | true, false => h_idiv_reg_reg dst src | true, true => h_irem_reg_reg dst src
  | false, false => h_div_reg_reg dst src | false, true => h_rem_reg_reg dst src
  end.
Theorem c32_division (W slim cb dst src : Z) (signed rem : bool) (s : mst) :
  is_reg W dst -> is_reg W src -> dst <> 4 -> src <> 0 -> src <> 2 ->
  ready W slim cb (div_code signed rem dst src) s ->
  let rdv := fun v => if signed then sgn W v else v in
  let a := rdv (rg s dst) in let b := rdv (rg s src) in
  b <> 0 -> (signed = true -> - HALF W <= Z.quot a b < HALF W) ->
  wp W slim (fun s' => rg s' dst = (if rem then Z.rem a b else Z.quot a b) mod MOD W /\
                       done W cb (div_code signed rem dst src) [dst; 0; 2] s s') s.
Proof.
  intros Hrd Hrs Hd4 Hs0 Hs2 R rdv a b Hb Hq. destruct R as [HW Hl Hregs Hm Hc Hpc Hd].
  pose proof (MOD_pos W HW) as MP. destruct (MODHALF W HW) as [HM HP].
  assert (Hv' : Forall (okc W) (div_code signed rem dst src)).
  { destruct signed, rem; repeat apply Forall_cons; try apply Forall_nil; (split; [|reflexivity]); cbn [valid];
      unfold is_reg in *; unfold int_range, AX, CX, DX; destruct HW as [-> | ->]; cbn in *; lia. }
  assert (Hs' : hsize W (div_code signed rem dst src) <= 100).
  { destruct signed, rem; cbn [div_code h_idiv_reg_reg h_irem_reg_reg h_div_reg_reg h_rem_reg_reg h_div hsize];
      unfold ilen; destruct HW as [-> | ->]; cbn -[Z.mul]; lia. }
  set (bytes := second_pass W (fun _ => None) (fun _ => None) 0 0 (hops W (div_code signed rem dst src))) in *.
  assert (P : placed W cb bytes (fun _ => None) 0 (div_code signed rem dst src)).
  { apply placed_loaded; auto; [apply okc_nolab with W; assumption|lia]. }
  assert (Hsz : ops_size W (hops W (div_code signed rem dst src)) = hsize W (div_code signed rem dst src)) by apply hsize_ops.
  destruct s as [r m p0 f o ip mp]. cbn [rg mm pc outp inp maps] in *. subst p0.
  rewrite <- (Z.add_0_r cb).
  assert (Fin : forall r' x, r' dst = (if rem then Z.rem a b else Z.quot a b) mod MOD W ->
     (forall q, ~ In q [dst; 0; 2] -> r' q = r q) -> x = hsize W (div_code signed rem dst src) ->
     forall f', wp W slim (fun s' => rg s' dst = (if rem then Z.rem a b else Z.quot a b) mod MOD W /\
                       done W (cb + 0) (div_code signed rem dst src) [dst; 0; 2] (MS r m (cb + 0) f o ip mp) s') (MS r' m (cb + x) f' o ip mp)).
  { intros r' x E1 E2 -> f'. apply wp_now. cbn [rg mm pc outp inp maps]. split; [exact E1|]. unfold done. cbn [rg mm pc outp inp maps].
    rewrite Z.add_0_r, Hsz. split; [reflexivity|]. split; [exact E2|]. auto. }
  assert (Oth : forall q, ~ In q [dst; 0; 2] -> q <> dst /\ q <> 0 /\ q <> 2) by (intros q Hq'; cbn in Hq'; lia).
  unfold div_code, h_idiv_reg_reg, h_irem_reg_reg, h_div_reg_reg, h_rem_reg_reg, h_div in *. change AX with 0 in *. change DX with 2 in *.
  destruct signed.
  - specialize (Hq eq_refl).
    assert (Key : sgn W (if HALF W <=? r dst then MOD W - 1 else 0) * MOD W + r dst = a).
    { unfold a, rdv, sgn. specialize (Hregs dst). destruct (Z.leb_spec (HALF W) (r dst)).
      - destruct (Z.leb_spec (HALF W) (MOD W - 1)); lia.
      - destruct (Z.leb_spec (HALF W) 0); lia. }
    assert (P' : exists res, placed W cb bytes (fun _ => None) 0 [HC (HAlu Amov 0 dst); HC HCdq; HC (HIdiv src); HC (HAlu Amov dst res)]
                 /\ res = if rem then 2 else 0) by (exists (if rem then 2 else 0); destruct rem; split; auto).
    destruct P' as (res & P' & Er). assert (Hsize : hsize W [HC (HAlu Amov 0 dst); HC HCdq; HC (HIdiv src); HC (HAlu Amov dst res)] =
       hsize W (if rem then [HC (HAlu Amov 0 dst); HC HCdq; HC (HIdiv src); HC (HAlu Amov dst 2)] else [HC (HAlu Amov 0 dst); HC HCdq; HC (HIdiv src); HC (HAlu Amov dst 0)])) by (subst res; destruct rem; reflexivity).
    clear P. rename P' into P.
    eapply wp_mov; [exact Hc|exact P|]. destruct P as [_ P].
    eapply wp_cdq; [exact Hc|exact P|]. destruct P as [_ P].
    assert (Src : upd (upd r 0 (r dst)) 2 (if HALF W <=? r dst then MOD W - 1 else 0) src = r src) by (ru; reflexivity).
    eapply wp_idiv with (q := Z.quot a b); [exact Hc|exact P|..].
    { ru. exact Hb. } { ru. rewrite Key. reflexivity. } { exact Hq. }
    destruct P as [_ P]. ru. rewrite Key.
    eapply wp_mov; [exact Hc|exact P|]. clear P.
    eapply Fin.
    + ru. rewrite Er. destruct rem; ru; reflexivity.
    + intros q Hq'. destruct (Oth q Hq') as (? & ? & ?). ru. reflexivity.
    + rewrite <- Hsize. cbn [hsize]. lia.
  - assert (P' : exists res, placed W cb bytes (fun _ => None) 0 [HC (HAlu Amov 0 dst); HC (HMovImm 2 0); HC (HDiv src); HC (HAlu Amov dst res)]
                 /\ res = if rem then 2 else 0) by (exists (if rem then 2 else 0); destruct rem; split; auto).
    destruct P' as (res & P' & Er). assert (Hsize : hsize W [HC (HAlu Amov 0 dst); HC (HMovImm 2 0); HC (HDiv src); HC (HAlu Amov dst res)] =
       hsize W (if rem then [HC (HAlu Amov 0 dst); HC (HMovImm 2 0); HC (HDiv src); HC (HAlu Amov dst 2)] else [HC (HAlu Amov 0 dst); HC (HMovImm 2 0); HC (HDiv src); HC (HAlu Amov dst 0)])) by (subst res; destruct rem; reflexivity).
    clear P. rename P' into P. unfold a, b, rdv in *. pose proof (Hregs dst). pose proof (Hregs src).
    eapply wp_mov; [exact Hc|exact P|]. destruct P as [_ P].
    eapply wp_movimm; [exact Hc|exact P|]. destruct P as [_ P].
    eapply wp_udiv; [exact Hc|exact P|..]; [ru; reflexivity|ru; lia|ru; lia|]. ru.
    destruct P as [_ P].
    eapply wp_mov; [exact Hc|exact P|]. clear P.
    assert (0 <= r dst / r src < MOD W) by (split; [apply Z.div_pos; lia|apply Z.le_lt_trans with (r dst); [apply Z.div_le_upper_bound; nia|lia]]).
    assert (0 <= r dst mod r src < MOD W) by (pose proof (Z.mod_pos_bound (r dst) (r src)); lia).
    eapply Fin.
    + ru. rewrite Er. destruct rem; ru; rewrite ?Z.rem_mod_nonneg, ?Z.quot_div_nonneg by lia; symmetry; apply Z.mod_small; lia.
    + intros q Hq'. destruct (Oth q Hq') as (? & ? & ?). ru. reflexivity.
    + rewrite <- Hsize. cbn [hsize]. lia.
Qed.

(** After a comparison, each condition code holds exactly when the C comparison it stands for does: signed for
    LT GE LE GT, unsigned for LT_U GE_U LE_U GT_U. *)
Theorem c32_conditions (W c a b : Z) (v : bool) : W = 4 \/ W = 8 -> 0 <= a < MOD W -> 0 <= b < MOD W ->
  ccsem W c a b = Some v -> cond c (cmp_flags W a b) = Some v.
Proof. apply cond_cc. Qed.
Example c32_conditions_example :
  ccsem 4 LT 4294967295 0 = Some true /\ ccsem 4 LT_U 4294967295 0 = Some false /\ ccsem 8 GE_U 5 5 = Some true.
Proof. repeat split. Qed.
