(** * 64-bit literal accumulation on 32-bit ints: pnut.c u64_mul_u32, u64_add_u32, u64_to_obj *)
From Coq Require Import ZArith List Lia Bool.
From Verif Require Import Base Numerals Output.
Import ListNotations.
Open Scope Z_scope.

(** 32-bit [int] operations as performed by the supported hosts (two's complement). *)
Definition addw (a b : Z) : Z := w32 (a + b).
Definition mulw (a b : Z) : Z := w32 (a * b).

(** pnut.c:974 macro I32_LOGICAL_RSHIFT_16. *)
Definition lsr16 (x : Z) : Z := Z.land (Z.shiftr x 16) 65535.

(** pnut.c:970-987 [u64_mul_u32]; the accumulator x[0],x[1] is the pair (lo,hi) of ints. *)
Definition u64_mul_u32 (x : Z * Z) (y : Z) : Z * Z :=
  let (x0, x1) := x in
  let xlo := Z.land x0 65535 in
  let xhi := lsr16 x0 in
  let ylo := Z.land y 65535 in
  let yhi := lsr16 y in
  let lo := mulw xlo ylo in
  let m1 := addw (mulw xlo yhi) (Z.shiftr lo 16) in
  let m2 := mulw xhi ylo in
  let m3 := addw (Z.land m1 65535) (Z.land m2 65535) in
  let hi := addw (addw (addw (mulw xhi yhi) (lsr16 m1)) (lsr16 m2)) (lsr16 m3) in
  (addw (w32 (Z.shiftl (Z.land m3 65535) 16)) (Z.land lo 65535),
   addw (mulw x1 y) hi).

(** pnut.c:990-995 [u64_add_u32]. *)
Definition u64_add_u32 (x : Z * Z) (y : Z) : Z * Z :=
  let (x0, x1) := x in
  let lo := addw x0 y in
  (lo, addw x1 (if Bool.eqb (x0 <? 0) (lo <? 0) then 0 else 1)).

(** pnut.c:1002-1010 [u64_to_obj]: small values become a negated int, others a two-word
    heap object; the object's address is abstracted away. *)
Inductive lit_obj := SmallInt (v : Z) | LargeInt (lo hi : Z).
Definition u64_to_obj (x : Z * Z) : lit_obj :=
  let (x0, x1) := x in
  if (0 <=? x0) && (x1 =? 0) then SmallInt (- x0) else LargeInt x0 x1.

(** ** Specification: the unsigned 64-bit number held by two 32-bit words. *)
Definition words (x : Z * Z) : Z := u32 (fst x) + 4294967296 * u32 (snd x).
Definition wf_words (x : Z * Z) : Prop := int_range (fst x) /\ int_range (snd x).

(** ** Proofs *)
Lemma land16 z : Z.land z 65535 = z mod 65536.
Proof. now rewrite (land_ones_mod z 16) by (reflexivity || lia). Qed.

Lemma lsr16_u32 z : lsr16 z = u32 z / 65536.
Proof.
  unfold lsr16. rewrite (land_ones_mod (Z.shiftr z 16) 16) by (reflexivity || lia).
  rewrite shift_mask_u32 by lia. reflexivity.
Qed.

Lemma u32_small z : 0 <= z < 4294967296 -> u32 z = z.
Proof. intros. unfold u32. apply Z.mod_small. lia. Qed.

Lemma u32_mod16 z : u32 z mod 65536 = z mod 65536.
Proof. change 65536 with (2 ^ 16). apply u32_mod. lia. Qed.

Lemma addw_u32 a b : u32 (addw a b) = u32 (a + b).
Proof. apply u32_w32. Qed.
Lemma mulw_u32 a b : u32 (mulw a b) = u32 (a * b).
Proof. apply u32_w32. Qed.
Lemma u32_add a b : u32 (u32 a + u32 b) = u32 (a + b).
Proof. unfold u32. now rewrite <- Z.add_mod by lia. Qed.
Lemma u32_mul a b : u32 (u32 a * u32 b) = u32 (a * b).
Proof. unfold u32. now rewrite <- Z.mul_mod by lia. Qed.
Lemma u32_u32 a : u32 (u32 a) = u32 a.
Proof. unfold u32. now rewrite Z.mod_mod by lia. Qed.

Lemma u32_add_l a b : u32 (u32 a + b) = u32 (a + b).
Proof. unfold u32. now rewrite Z.add_mod_idemp_l by lia. Qed.

Lemma mod_words lo hi : 0 <= lo < 4294967296 ->
  (lo + 4294967296 * hi) mod 18446744073709551616 = lo + 4294967296 * u32 hi.
Proof.
  intros H. change 18446744073709551616 with (4294967296 * 4294967296).
  rewrite Z.rem_mul_r by lia.
  replace (lo + 4294967296 * hi) with (lo + hi * 4294967296) by ring.
  rewrite Z.mod_add, Z.div_add by lia.
  rewrite (Z.mod_small lo), (Z.div_small lo) by lia. unfold u32. f_equal.
Qed.

Lemma u64_mul_ok x y :
  wf_words x -> 0 <= y <= 32768 ->
  wf_words (u64_mul_u32 x y) /\
  words (u64_mul_u32 x y) = (words x * y) mod 18446744073709551616.
Proof.
  destruct x as [x0 x1]. intros [H0 H1] Hy. cbn [fst snd] in *.
  unfold u64_mul_u32. rewrite !lsr16_u32, !land16.
  rewrite (Z.mod_small y) by lia. rewrite (u32_small y) by lia.
  rewrite (Z.div_small y) by lia.
  set (a := x0 mod 65536). set (b := u32 x0 / 65536).
  assert (Ha : 0 <= a < 65536) by (apply Z.mod_pos_bound; lia).
  pose proof (u32_range x0) as Hux.
  assert (Hb : 0 <= b < 65536) by (unfold b; split; [apply Z.div_pos|apply Z.div_lt_upper_bound]; lia).
  assert (Hx0 : u32 x0 = a + 65536 * b).
  { unfold a, b. rewrite <- u32_mod16. pose proof (Z.div_mod (u32 x0) 65536 ltac:(lia)). lia. }
  unfold mulw, addw. cbv zeta.
  split; [split; cbn [fst snd]; apply w32_range|].
  rewrite !Z.mul_0_r. change (w32 0) with 0. rewrite !Z.add_0_l.
  fold a b. set (lo := a * y). assert (Hlo : 0 <= lo < 2147483648) by (unfold lo; nia).
  rewrite (w32_id lo) by (unfold int_range; lia).
  rewrite Z.shiftr_div_pow2 by lia. change (2 ^ 16) with 65536.
  set (q := lo / 65536). set (r := lo mod 65536).
  assert (Hqr : lo = 65536 * q + r) by (apply Z.div_mod; lia).
  assert (Hr : 0 <= r < 65536) by (apply Z.mod_pos_bound; lia).
  assert (Hq : 0 <= q < 32768) by (unfold q; split; [apply Z.div_pos|apply Z.div_lt_upper_bound]; lia).
  rewrite (w32_id q) by (unfold int_range; lia).
  rewrite (Z.mod_small q) by lia.
  rewrite (u32_small q) by lia. rewrite (Z.div_small q) by lia.
  set (m2 := b * y). assert (Hm2 : 0 <= m2 < 2147483648) by (unfold m2; nia).
  rewrite (w32_id m2) by (unfold int_range; lia).
  rewrite (u32_small m2) by lia.
  set (q2 := m2 / 65536). set (r2 := m2 mod 65536).
  assert (Hqr2 : m2 = 65536 * q2 + r2) by (apply Z.div_mod; lia).
  assert (Hr2 : 0 <= r2 < 65536) by (apply Z.mod_pos_bound; lia).
  assert (Hq2 : 0 <= q2 < 32768) by (unfold q2; split; [apply Z.div_pos|apply Z.div_lt_upper_bound]; lia).
  rewrite (w32_id (q + r2)) by (unfold int_range; lia).
  rewrite (u32_small (q + r2)) by lia.
  set (q3 := (q + r2) / 65536). set (r3 := (q + r2) mod 65536).
  assert (Hqr3 : q + r2 = 65536 * q3 + r3) by (apply Z.div_mod; lia).
  assert (Hr3 : 0 <= r3 < 65536) by (apply Z.mod_pos_bound; lia).
  assert (Hq3 : 0 <= q3 < 65536) by (unfold q3; split; [apply Z.div_pos|apply Z.div_lt_upper_bound]; lia).
  change (w32 0) with 0. rewrite !Z.add_0_l.
  rewrite (w32_id q2) by (unfold int_range; lia).
  rewrite (w32_id (q2 + q3)) by (unfold int_range; lia).
  unfold words; cbn [fst snd].
  rewrite !u32_w32.
  rewrite Z.shiftl_mul_pow2 by lia. change (2 ^ 16) with 65536.
  rewrite <- (u32_add (w32 (r3 * 65536)) r), u32_w32, u32_add.
  rewrite (u32_small (r3 * 65536 + r)) by lia.
  rewrite <- (u32_add (w32 (x1 * y)) (q2 + q3)), u32_w32, u32_add.
  rewrite Hx0.
  replace ((a + 65536 * b + 4294967296 * u32 x1) * y)
    with ((r3 * 65536 + r) + 4294967296 * (u32 x1 * y + (q2 + q3))) by (unfold lo, m2 in *; nia).
  rewrite mod_words by lia. do 2 f_equal.
  rewrite <- (u32_add (u32 x1 * y)), <- (u32_mul (u32 x1)), u32_u32, u32_mul, u32_add.
  reflexivity.
Qed.

Lemma u64_add_exact x y :
  wf_words x -> 0 <= y < 2147483648 ->
  wf_words (u64_add_u32 x y) /\
  words (u64_add_u32 x y) =
    (words x + y +
     (if (0 <=? fst x) && (2147483648 <=? fst x + y) then 4294967296 else 0))
    mod 18446744073709551616.
Proof.
  destruct x as [x0 x1]. intros [H0 H1] Hy. cbn [fst snd] in *.
  unfold u64_add_u32. split; [split; apply w32_range|].
  unfold words, addw; cbn [fst snd]. rewrite !u32_w32.
  unfold int_range in *.
  assert (Hx1 : u32 (u32 x1) = u32 x1) by apply u32_u32.
  destruct (Z.leb_spec 0 x0) as [Hp|Hn].
  - destruct (Z.leb_spec 2147483648 (x0 + y)).
    + assert (E : w32 (x0 + y) = x0 + y - 4294967296).
      { unfold w32. replace (x0 + y + 2147483648) with (x0 + y - 2147483648 + 1 * 4294967296) by ring.
        rewrite Z.mod_add, Z.mod_small by lia. lia. }
      rewrite E. destruct (Z.ltb_spec x0 0); [lia|].
      destruct (Z.ltb_spec (x0 + y - 4294967296) 0); [|lia]. cbn [Bool.eqb andb].
      rewrite (u32_small (x0 + y)), (u32_small x0) by lia.
      replace (x0 + 4294967296 * u32 x1 + y + 4294967296)
        with ((x0 + y) + 4294967296 * (u32 x1 + 1)) by ring.
      rewrite mod_words by lia. do 2 f_equal. now rewrite u32_add_l.
    + rewrite (w32_id (x0 + y)) by (unfold int_range; lia).
      destruct (Z.ltb_spec x0 0); [lia|].
      destruct (Z.ltb_spec (x0 + y) 0); [lia|]. cbn [Bool.eqb andb].
      rewrite (u32_small (x0 + y)), (u32_small x0) by lia.
      replace (x0 + 4294967296 * u32 x1 + y + 0)
        with ((x0 + y) + 4294967296 * u32 x1) by ring.
      rewrite mod_words by lia. rewrite Hx1, Z.add_0_r. reflexivity.
  - rewrite (w32_id (x0 + y)) by (unfold int_range; lia).
    cbn [andb].
    assert (E0 : u32 x0 = x0 + 4294967296).
    { unfold u32. replace x0 with (x0 + 4294967296 + (-1) * 4294967296) at 1 by ring.
      rewrite Z.mod_add, Z.mod_small; lia. }
    rewrite E0. destruct (Z.ltb_spec x0 0); [|lia].
    destruct (Z.ltb_spec (x0 + y) 0); cbn [Bool.eqb].
    + assert (E : u32 (x0 + y) = x0 + y + 4294967296).
      { unfold u32. replace (x0 + y) with (x0 + y + 4294967296 + (-1) * 4294967296) at 1 by ring.
        rewrite Z.mod_add, Z.mod_small; lia. }
      rewrite E.
      replace (x0 + 4294967296 + 4294967296 * u32 x1 + y + 0)
        with ((x0 + y + 4294967296) + 4294967296 * u32 x1) by ring.
      rewrite mod_words by lia. rewrite Hx1, Z.add_0_r. reflexivity.
    + rewrite (u32_small (x0 + y)) by lia.
      replace (x0 + 4294967296 + 4294967296 * u32 x1 + y + 0)
        with ((x0 + y) + 4294967296 * (u32 x1 + 1)) by ring.
      rewrite mod_words by lia. do 2 f_equal. now rewrite u32_add_l.
Qed.

(** ** Accumulating a digit string (the two calls in accum_digit, pnut.c:1036-1038). *)
Definition accum64 (base : Z) (x : Z * Z) (d : Z) : Z * Z :=
  u64_add_u32 (u64_mul_u32 x base) d.

Lemma words_bound x : 0 <= words x < 18446744073709551616.
Proof.
  unfold words. pose proof (u32_range (fst x)). pose proof (u32_range (snd x)). lia.
Qed.

Lemma fst_u32_words x : wf_words x -> u32 (fst x) = words x mod 4294967296.
Proof.
  intros _. unfold words. rewrite Z.mul_comm, Z.mod_add by lia.
  symmetry. apply Z.mod_small. apply u32_range.
Qed.

(** A digit step is exact unless the low word crosses 2^31. *)
Lemma accum64_ok base x d :
  wf_words x -> 2 <= base <= 16 -> 0 <= d < base ->
  ~ ((words x * base) mod 4294967296 < 2147483648 <= (words x * base) mod 4294967296 + d) ->
  wf_words (accum64 base x d) /\
  words (accum64 base x d) = (words x * base + d) mod 18446744073709551616.
Proof.
  intros Hw Hb Hd Hc. unfold accum64.
  destruct (u64_mul_ok x base Hw ltac:(lia)) as [Hw1 E1].
  destruct (u64_add_exact (u64_mul_u32 x base) d Hw1 ltac:(lia)) as [Hw2 E2].
  split; [exact Hw2|]. rewrite E2, E1.
  pose proof (fst_u32_words _ Hw1) as Hf. rewrite E1 in Hf.
  rewrite <- (Znumtheory.Zmod_div_mod 4294967296 18446744073709551616) in Hf
    by (try lia; exists 4294967296; reflexivity).
  destruct Hw1 as [Hr _]. unfold int_range in Hr.
  destruct (Z.leb_spec 0 (fst (u64_mul_u32 x base))).
  - rewrite (u32_small (fst _)) in Hf by lia.
    destruct (Z.leb_spec 2147483648 (fst (u64_mul_u32 x base) + d)); [exfalso; apply Hc; lia|].
    cbn [andb]. rewrite Z.add_0_r, Z.add_mod_idemp_l by lia. reflexivity.
  - cbn [andb]. rewrite Z.add_0_r, Z.add_mod_idemp_l by lia. reflexivity.
Qed.

(** In bases 8 and 16 the crossing never happens. *)
Lemma no_cross_pow2 base z d : base = 8 \/ base = 16 -> 0 <= d < base ->
  ~ ((z * base) mod 4294967296 < 2147483648 <= (z * base) mod 4294967296 + d).
Proof.
  intros Hb Hd [H1 H2].
  assert (E : exists k, (z * base) mod 4294967296 = base * k).
  { destruct Hb as [-> | ->].
    - change 4294967296 with (8 * 536870912). rewrite (Z.mul_comm z), Z.mul_mod_distr_l by lia. eauto.
    - change 4294967296 with (16 * 268435456). rewrite (Z.mul_comm z), Z.mul_mod_distr_l by lia. eauto. }
  destruct E as [k E]. rewrite E in *. destruct Hb as [-> | ->]; lia.
Qed.

Fixpoint accum64_all (base : Z) (x : Z * Z) (ds : list Z) : Z * Z :=
  match ds with [] => x | d :: r => accum64_all base (accum64 base x d) r end.

Definition digits_value (base acc : Z) (ds : list Z) : Z := fold_left (fun a d => a * base + d) ds acc.

Lemma digits_value_mod base M ds : 0 < M -> forall a b, a mod M = b mod M ->
  digits_value base a ds mod M = digits_value base b ds mod M.
Proof.
  intros HM. induction ds as [|d r IH]; intros a b H; [exact H|].
  cbn. apply IH. rewrite Z.add_mod, Z.mul_mod, H, <- Z.mul_mod, <- Z.add_mod by lia. reflexivity.
Qed.

Lemma accum64_all_pow2 base ds : base = 8 \/ base = 16 -> Forall (fun d => 0 <= d < base) ds ->
  forall x, wf_words x ->
  wf_words (accum64_all base x ds) /\
  words (accum64_all base x ds) = digits_value base (words x) ds mod 18446744073709551616.
Proof.
  intros Hb H. induction H as [|d r Hd _ IH]; intros x Hx.
  - split; [exact Hx|]. cbn. symmetry. apply Z.mod_small, words_bound.
  - cbn [accum64_all]. destruct (accum64_ok base x d Hx) as [Hw E]; [lia|lia|now apply no_cross_pow2|].
    destruct (IH _ Hw) as [Hw' E']. split; [exact Hw'|].
    rewrite E'. cbn. apply digits_value_mod; [lia|]. rewrite E. apply Z.mod_mod. lia.
Qed.

Lemma digits_value_app base ds1 ds2 : forall a,
  digits_value base a (ds1 ++ ds2) = digits_value base (digits_value base a ds1) ds2.
Proof. intros. unfold digits_value. apply fold_left_app. Qed.

Lemma digits_value_ge base ds : 1 <= base -> Forall (fun d => 0 <= d < base) ds ->
  forall a, 0 <= a -> a <= digits_value base a ds.
Proof.
  intros Hb H. induction H as [|d r Hd _ IH]; intros a Ha; [cbn; lia|].
  change (a <= digits_value base (a * base + d) r).
  assert (Hm : a <= a * base) by (rewrite <- (Z.mul_1_r a) at 1; apply Z.mul_le_mono_nonneg_l; lia).
  specialize (IH (a * base + d) ltac:(lia)). lia.
Qed.

(** Decimal literals below 2^32 are exact except for 2147483648 and 2147483649. *)
Lemma accum64_all_dec ds : Forall (fun d => 0 <= d < 10) ds ->
  forall x, wf_words x -> 
  digits_value 10 (words x) ds < 4294967296 ->
  words x <> 2147483648 -> words x <> 2147483649 ->
  digits_value 10 (words x) ds <> 2147483648 ->
  digits_value 10 (words x) ds <> 2147483649 ->
  wf_words (accum64_all 10 x ds) /\
  words (accum64_all 10 x ds) = digits_value 10 (words x) ds.
Proof.
  intros H. induction H as [|d r Hd Hr IH]; intros x Hx Hlt N1 N2 N3 N4.
  - split; [exact Hx|reflexivity].
  - cbn [accum64_all]. change (digits_value 10 (words x) (d :: r)) with (digits_value 10 (words x * 10 + d) r) in *.
    pose proof (words_bound x).
    pose proof (digits_value_ge 10 r ltac:(lia) Hr (words x * 10 + d) ltac:(lia)).
    assert (M1 : words x * 10 + d <> 2147483648 /\ words x * 10 + d <> 2147483649).
    { destruct r as [|d' r'].
      - cbn in N3, N4. auto.
      - inversion Hr as [|? ? Hd' Hr']; subst.
        change (digits_value 10 (words x * 10 + d) (d' :: r')) with (digits_value 10 ((words x * 10 + d) * 10 + d') r') in *.
        pose proof (digits_value_ge 10 r' ltac:(lia) Hr' ((words x * 10 + d) * 10 + d') ltac:(lia)). lia. }
    destruct (accum64_ok 10 x d Hx ltac:(lia) ltac:(lia)) as [Hw E].
    { rewrite Z.mod_small by lia. intros [? ?]. lia. }
    rewrite Z.mod_small in E by lia.
    rewrite <- E in *. apply IH; auto; tauto.
Qed.
