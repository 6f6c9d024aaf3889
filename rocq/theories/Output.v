(** * Integer output: pnut.c putint / accum_string_integer, sh.c puthex_unsigned / putoct_unsigned *)
From Coq Require Import ZArith List Lia Bool.
From Verif Require Import Base Numerals.
Import ListNotations.
Open Scope Z_scope.

(** pnut.c:268-271 [putint_aux].  C's [/] and [%] truncate towards zero.
    The C recursion is unbounded; [fuel] bounds it and [None] is "out of fuel". *)
Fixpoint putint_aux (fuel : nat) (n : Z) : option (list Z) :=
  match fuel with
  | O => None
  | S f =>
      if n <=? -10
      then match putint_aux f (Z.quot n 10) with
           | Some p => Some (p ++ [48 - Z.rem n 10])
           | None => None
           end
      else Some [48 - Z.rem n 10]
  end.

(** pnut.c:273-280 [putint].  Depth 10 is enough for 32-bit ints (proved below). *)
Definition putint (n : Z) : option (list Z) :=
  if n <? 0 then option_map (cons 45) (putint_aux 10 n)
  else putint_aux 10 (- n).

(** sh.c:210-214 [puthex_unsigned]; the digit string is indexed by [n & 15]. *)
Definition hexchar (d : Z) : Z := if d <? 10 then 48 + d else 87 + d.

Fixpoint puthex_unsigned (fuel : nat) (n : Z) : option (list Z) :=
  match fuel with
  | O => None
  | S f =>
      let up := Z.land (Z.shiftr n 4) 268435455 in
      if up =? 0 then Some [hexchar (Z.land n 15)]
      else match puthex_unsigned f up with
           | Some p => Some (p ++ [hexchar (Z.land n 15)])
           | None => None
           end
  end.

(** sh.c:216-220 [putoct_unsigned]. *)
Fixpoint putoct_unsigned (fuel : nat) (n : Z) : option (list Z) :=
  match fuel with
  | O => None
  | S f =>
      let up := Z.land (Z.shiftr n 3) 536870911 in
      if up =? 0 then Some [48 + Z.land n 7]
      else match putoct_unsigned f up with
           | Some p => Some (p ++ [48 + Z.land n 7])
           | None => None
           end
  end.

(** pnut.c:613-628 [accum_string_integer], the characters it appends (nonnegative case,
    which both build variants share; the 64-bit variant rejects negatives, the other writes '-'). *)
Fixpoint accum_string_integer (fuel : nat) (n : Z) : option (list Z) :=
  match fuel with
  | O => None
  | S f =>
      if n <? 0 then None
      else if 9 <? n
      then match accum_string_integer f (Z.quot n 10) with
           | Some p => Some (p ++ [48 + Z.rem n 10])
           | None => None
           end
      else Some [48 + Z.rem n 10]
  end.

(** ** Proofs *)

Lemma denotes_eq b l v v' : denotes b l v -> v = v' -> denotes b l v'.
Proof. now intros ? <-. Qed.


Lemma putint_aux_ok : forall fuel n,
  (0 < fuel)%nat -> - 10 ^ Z.of_nat fuel < n <= 0 ->
  exists ds, putint_aux fuel n = Some ds /\ denotes 10 ds (- n).
Proof.
  induction fuel as [|f IH]; intros n Hf Hn.
  - lia.
  - cbn [putint_aux].
    rewrite Nat2Z.inj_succ, Z.pow_succ_r in Hn by lia.
    assert (Hr : Z.rem n 10 = - ((- n) mod 10)).
    { rewrite <- (Z.opp_involutive n) at 1. rewrite Z.rem_opp_l by lia.
      rewrite Z.rem_mod_nonneg by lia. reflexivity. }
    assert (Hq : Z.quot n 10 = - ((- n) / 10)).
    { rewrite <- (Z.opp_involutive n) at 1. rewrite Z.quot_opp_l by lia.
      rewrite Z.quot_div_nonneg by lia. reflexivity. }
    pose proof (Z.mod_pos_bound (- n) 10 ltac:(lia)).
    pose proof (Z.div_mod (- n) 10 ltac:(lia)).
    assert (He : 48 - Z.rem n 10 = 48 + (- n) mod 10) by lia.
    rewrite He, Hq.
    destruct (Z.leb_spec n (-10)) as [Hle|Hgt].
    + destruct (IH (- (- n / 10))) as (p & Hp & Hd); [destruct f; [simpl in Hn|]; lia|lia|].
      rewrite Hp. eexists; split; [reflexivity|].
      eapply denotes_eq; [apply denotes_snoc with (d := (- n) mod 10); [eassumption|lia|apply digit_char; lia|lia]|lia].
    + eexists; split; [reflexivity|].
      rewrite Z.mod_small by lia.
      apply denotes_single; [apply digit_char|]; lia.
Qed.

Lemma putint_ok : forall n, int_range n ->
  exists ds, putint n = Some (if n <? 0 then 45 :: ds else ds) /\ denotes 10 ds (Z.abs n).
Proof.
  unfold int_range, putint. intros n Hn.
  destruct (Z.ltb_spec n 0).
  - destruct (putint_aux_ok 10 n) as (ds & -> & Hd); [lia|simpl; lia|].
    exists ds. split; [reflexivity|]. now rewrite Z.abs_neq by lia.
  - destruct (putint_aux_ok 10 (- n)) as (ds & -> & Hd); [lia|simpl; lia|].
    exists ds. split; [reflexivity|]. now rewrite Z.abs_eq, <- (Z.opp_involutive n) by lia.
Qed.

Lemma hexchar_digit d : 0 <= d < 16 -> digit_of (hexchar d) = Some d.
Proof.
  intros. unfold hexchar, digit_of.
  destruct (Z.ltb_spec d 10);
  repeat match goal with |- context [?a <=? ?b] => destruct (Z.leb_spec a b); try lia end;
  cbn [andb]; f_equal; lia.
Qed.

Lemma land_ones_mod n k m : m = Z.ones k -> 0 <= k -> Z.land n m = n mod 2 ^ k.
Proof. intros -> ?. apply Z.land_ones; auto. Qed.

Lemma shift_mask_u32 n k j : 0 <= k -> 0 <= j -> k + j = 32 ->
  Z.shiftr n k mod 2 ^ j = u32 n / 2 ^ k.
Proof.
  intros. rewrite Z.shiftr_div_pow2 by lia. unfold u32.
  change 4294967296 with (2 ^ 32). replace 32 with (k + j) by lia.
  rewrite Z.pow_add_r by lia.
  rewrite Z.rem_mul_r by (try apply Z.pow_nonzero; try apply Z.pow_pos_nonneg; lia).
  rewrite Z.mul_comm, Z.div_add by (apply Z.pow_nonzero; lia).
  rewrite (Z.div_small (n mod 2 ^ k)) by (apply Z.mod_pos_bound; apply Z.pow_pos_nonneg; lia).
  lia.
Qed.

Lemma u32_mod n k : 0 <= k <= 32 -> u32 n mod 2 ^ k = n mod 2 ^ k.
Proof.
  intros. unfold u32. change 4294967296 with (2 ^ 32).
  replace 32 with (k + (32 - k)) by lia. rewrite Z.pow_add_r by lia.
  rewrite Z.rem_mul_r by (try apply Z.pow_nonzero; try apply Z.pow_pos_nonneg; lia).
  rewrite Z.mul_comm, Z.mod_add by (apply Z.pow_nonzero; lia).
  apply Z.mod_mod. apply Z.pow_nonzero; lia.
Qed.

Lemma puthex_ok : forall fuel n,
  (0 < fuel)%nat -> u32 n < 16 ^ Z.of_nat fuel ->
  exists ds, puthex_unsigned fuel n = Some ds /\ denotes 16 ds (u32 n).
Proof.
  induction fuel as [|f IH]; intros n Hf Hn.
  - lia.
  - cbn [puthex_unsigned].
    rewrite Nat2Z.inj_succ, Z.pow_succ_r in Hn by lia.
    rewrite (land_ones_mod (Z.shiftr n 4) 28) by (reflexivity || lia).
    rewrite (land_ones_mod n 4) by (reflexivity || lia).
    rewrite shift_mask_u32 by lia. rewrite <- (u32_mod n 4) by lia.
    pose proof (u32_range n) as Hu. set (m := u32 n) in *.
    change (2 ^ 4) with 16.
    pose proof (Z.mod_pos_bound m 16 ltac:(lia)).
    pose proof (Z.div_mod m 16 ltac:(lia)).
    destruct (Z.eqb_spec (m / 16) 0).
    + eexists; split; [reflexivity|].
      eapply denotes_eq; [eapply denotes_single; [apply hexchar_digit; lia|lia]|lia].
    + assert (Hs : u32 (m / 16) = m / 16) by (unfold u32; rewrite Z.mod_small; lia).
      destruct (IH (m / 16)) as (p & Hp & Hd); [destruct f; [simpl in Hn|]; lia|lia|].
      rewrite Hp. eexists; split; [reflexivity|].
      rewrite Hs in Hd.
      eapply denotes_eq; [apply denotes_snoc with (d := m mod 16); [eassumption|lia|apply hexchar_digit; lia|lia]|lia].
Qed.

Lemma putoct_ok : forall fuel n,
  (0 < fuel)%nat -> u32 n < 8 ^ Z.of_nat fuel ->
  exists ds, putoct_unsigned fuel n = Some ds /\ denotes 8 ds (u32 n).
Proof.
  induction fuel as [|f IH]; intros n Hf Hn.
  - lia.
  - cbn [putoct_unsigned].
    rewrite Nat2Z.inj_succ, Z.pow_succ_r in Hn by lia.
    rewrite (land_ones_mod (Z.shiftr n 3) 29) by (reflexivity || lia).
    rewrite (land_ones_mod n 3) by (reflexivity || lia).
    rewrite shift_mask_u32 by lia. rewrite <- (u32_mod n 3) by lia.
    pose proof (u32_range n) as Hu. set (m := u32 n) in *.
    change (2 ^ 3) with 8.
    pose proof (Z.mod_pos_bound m 8 ltac:(lia)).
    pose proof (Z.div_mod m 8 ltac:(lia)).
    destruct (Z.eqb_spec (m / 8) 0).
    + eexists; split; [reflexivity|].
      eapply denotes_eq; [eapply denotes_single; [apply digit_char; lia|lia]|lia].
    + assert (Hs : u32 (m / 8) = m / 8) by (unfold u32; rewrite Z.mod_small; lia).
      destruct (IH (m / 8)) as (p & Hp & Hd); [destruct f; [simpl in Hn|]; lia|lia|].
      rewrite Hp. eexists; split; [reflexivity|].
      rewrite Hs in Hd.
      eapply denotes_eq; [apply denotes_snoc with (d := m mod 8); [eassumption|lia|apply digit_char; lia|lia]|lia].
Qed.

Lemma accum_string_integer_ok : forall fuel n,
  (0 < fuel)%nat -> 0 <= n < 10 ^ Z.of_nat fuel ->
  exists ds, accum_string_integer fuel n = Some ds /\ denotes 10 ds n.
Proof.
  induction fuel as [|f IH]; intros n Hf Hn.
  - lia.
  - cbn [accum_string_integer].
    rewrite Nat2Z.inj_succ, Z.pow_succ_r in Hn by lia.
    rewrite Z.quot_div_nonneg, Z.rem_mod_nonneg by lia.
    pose proof (Z.mod_pos_bound n 10 ltac:(lia)).
    pose proof (Z.div_mod n 10 ltac:(lia)).
    destruct (Z.ltb_spec n 0); [lia|].
    destruct (Z.ltb_spec 9 n).
    + destruct (IH (n / 10)) as (p & -> & Hd); [destruct f; [simpl in Hn|]; lia|lia|].
      eexists; split; [reflexivity|].
      eapply denotes_eq; [apply denotes_snoc with (d := n mod 10); [eassumption|lia|apply digit_char; lia|lia]|lia].
    + eexists; split; [reflexivity|]. rewrite Z.mod_small by lia.
      apply denotes_single; [apply digit_char|]; lia.
Qed.
