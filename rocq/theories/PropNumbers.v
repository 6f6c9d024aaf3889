(** * Properties C01-C04, C11: numbers and literals *)
From Coq Require Import ZArith List Lia Bool String.
From Verif Require Import Base Numerals Output U64 Literals.
Import ListNotations.
Open Scope Z_scope.

(** ** C01 *)
Theorem c01_putint_denotes : forall n, -2147483648 <= n < 2147483648 ->
  exists ds, putint n = Some (if n <? 0 then 45 :: ds else ds) /\ denotes 10 ds (Z.abs n).
Proof. exact putint_ok. Qed.

Theorem c01_hex_denotes : forall n, -2147483648 <= n < 2147483648 ->
  exists ds, puthex_unsigned 8 n = Some ds /\ denotes 16 ds (n mod 4294967296).
Proof.
  intros n H. apply (puthex_ok 8 n); [lia|]. pose proof (u32_range n).
  change (16 ^ Z.of_nat 8) with 4294967296. lia.
Qed.

Theorem c01_oct_denotes : forall n, -2147483648 <= n < 2147483648 ->
  exists ds, putoct_unsigned 11 n = Some ds /\ denotes 8 ds (n mod 4294967296).
Proof.
  intros n H. apply (putoct_ok 11 n); [lia|]. pose proof (u32_range n).
  change (8 ^ Z.of_nat 11) with 8589934592. lia.
Qed.

Theorem c01_pasted_integer_denotes : forall n, 0 <= n < 2147483648 ->
  exists ds, accum_string_integer 10 n = Some ds /\ denotes 10 ds n.
Proof.
  intros n H. apply (accum_string_integer_ok 10 n); [lia|].
  change (10 ^ Z.of_nat 10) with 10000000000. lia.
Qed.

Example c01_ex_min : putint (-2147483648) = Some (zs "-2147483648").
Proof. reflexivity. Qed.
Example c01_ex_hex : puthex_unsigned 8 (-1) = Some (zs "ffffffff").
Proof. reflexivity. Qed.

(** ** C02: the accumulator holds its mathematical value modulo 2^64.
    The multiplication is exact for every multiplier up to 2^15 (the code only uses the bases
    8, 10, 16); for larger ones, and for the addition, the full statement is refuted. *)
Theorem c02_mul_partial : forall lo hi y, int_range lo -> int_range hi -> 0 <= y <= 32768 ->
  words (u64_mul_u32 (lo, hi) y) = (words (lo, hi) * y) mod 2 ^ 64.
Proof. intros. apply u64_mul_ok; [split; assumption|lia]. Qed.

Theorem c02_mul_refuted : ~ (forall lo hi y, int_range lo -> int_range hi -> int_range y ->
  words (u64_mul_u32 (lo, hi) y) = (words (lo, hi) * u32 y) mod 2 ^ 64).
Proof.
  intros H. specialize (H 65535 0 (-1) ltac:(unfold int_range; lia) ltac:(unfold int_range; lia)
    ltac:(unfold int_range; lia)). vm_compute in H. discriminate.
Qed.

Theorem c02_add_refuted : ~ (forall lo hi d, int_range lo -> int_range hi -> 0 <= d < 10 ->
  words (u64_add_u32 (lo, hi) d) = (words (lo, hi) + d) mod 2 ^ 64).
Proof.
  intros H. specialize (H 2147483640 0 8 ltac:(unfold int_range; lia) ltac:(unfold int_range; lia) ltac:(lia)).
  vm_compute in H. discriminate.
Qed.

(** Exactly when the addition goes wrong: the low word passes from below 2^31 to 2^31 or more. *)
Theorem c02_add_exact_partial : forall lo hi d, int_range lo -> int_range hi -> 0 <= d < 2147483648 ->
  words (u64_add_u32 (lo, hi) d) =
    (words (lo, hi) + d + (if (0 <=? lo) && (2147483648 <=? lo + d) then 2 ^ 32 else 0)) mod 2 ^ 64.
Proof. intros. apply (u64_add_exact (lo, hi) d); [split; assumption|lia]. Qed.

Example c02_ex : words (u64_mul_u32 (-1, 5) 16) = 16 * (5 * 2^32 + (2^32 - 1)) mod 2^64.
Proof. reflexivity. Qed.

(** ** C03 *)
(** 32-bit builds: every literal whose value an int can hold. *)
Theorem c03_decimal : forall with_base ds v rest,
  denotes 10 ds v -> 0 < v <= 2147483648 -> no_more 10 rest ->
  scan_number32 with_base (ds ++ rest) = Some (INTEGER, - v, rest).
Proof. exact scan_decimal32. Qed.

Theorem c03_octal : forall with_base ds v rest,
  value_from 8 0 ds = Some v -> v <= 2147483648 -> no_more 8 rest ->
  (ds = [] -> match rest with x :: _ => x <> 120 /\ x <> 88 | [] => True end) ->
  scan_number32 with_base (48 :: ds ++ rest) =
    Some (if with_base && negb (v =? 0) then INTEGER_OCT else INTEGER, - v, rest).
Proof. exact scan_octal32. Qed.

Theorem c03_hex : forall with_base x ds v rest, x = 120 \/ x = 88 ->
  numeral_value 16 ds = Some v -> v <= 2147483648 -> no_more 16 rest ->
  scan_number32 with_base (48 :: x :: ds ++ rest) =
    Some (if with_base then INTEGER_HEX else INTEGER, - v, rest).
Proof. exact scan_hex32. Qed.

(** 64-bit builds: hexadecimal and octal literals of any length. *)
Theorem c03_hex64 : forall with_base x ds v rest, x = 120 \/ x = 88 ->
  numeral_value 16 ds = Some v -> no_more 16 rest ->
  exists w, scan_number64 with_base (48 :: x :: ds ++ rest) =
              Some (if with_base then INTEGER_HEX else INTEGER, w, rest) /\
            obj_value (u64_to_obj w) = v mod 2 ^ 64.
Proof.
  intros wb x ds v rest Hx Hv Hn. destruct (scan_hex64 wb x ds v rest Hx Hv Hn) as (w & E & Hw & Ev).
  exists w. split; [exact E|]. rewrite u64_to_obj_value by exact Hw. exact Ev.
Qed.

Theorem c03_octal64 : forall ds v rest,
  value_from 8 0 ds = Some v -> no_more 8 rest ->
  (ds = [] -> match rest with x :: _ => x <> 120 /\ x <> 88 | [] => True end) ->
  exists w, scan_number64 false (48 :: ds ++ rest) = Some (INTEGER, w, rest) /\
            obj_value (u64_to_obj w) = v mod 2 ^ 64.
Proof.
  intros ds v rest Hv Hn Hx. destruct (scan_octal64 ds v rest Hv Hn Hx) as (w & E & Hw & Ev).
  exists w. split; [exact E|]. rewrite u64_to_obj_value by exact Hw. exact Ev.
Qed.

(** 64-bit builds, decimal: the full claim is false ... *)
Theorem c03_decimal64_refuted : ~ (forall ds v rest,
  denotes 10 ds v -> 0 < v < 2 ^ 64 -> no_more 10 rest ->
  exists w, scan_number64 false (ds ++ rest) = Some (INTEGER, w, rest) /\
            obj_value (u64_to_obj w) = v).
Proof.
  intros H. destruct (H (zs "2147483648") 2147483648 [59]) as (w & E & Ev).
  - split; [reflexivity|right; cbn; eauto]. eexists _, _. split; [reflexivity|lia].
  - lia.
  - reflexivity.
  - vm_compute in E. injection E as <-. vm_compute in Ev. discriminate.
Qed.

(** ... but true below 2^32 for all values except 2147483648 and 2147483649. *)
Theorem c03_decimal64_partial : forall ds v rest,
  denotes 10 ds v -> 0 < v < 2 ^ 32 -> v <> 2147483648 -> v <> 2147483649 -> no_more 10 rest ->
  exists w, scan_number64 false (ds ++ rest) = Some (INTEGER, w, rest) /\
            obj_value (u64_to_obj w) = v.
Proof.
  intros ds v rest Hd Hr N1 N2 Hn.
  destruct (scan_decimal64 ds v rest Hd Hr N1 N2 Hn) as (w & E & Hw & Ev).
  exists w. split; [exact E|]. rewrite u64_to_obj_value by exact Hw. exact Ev.
Qed.

Theorem c03_suffix : forall tok s k rest,
  In (suffix_letters s, k) suffix_table -> no_suffix_letter rest ->
  scan_suffix tok (s ++ rest) = (k, rest).
Proof. exact scan_suffix_ok. Qed.

Example c03_ex_dec : denotes 10 (zs "2147483647") 2147483647 /\ no_more 10 (zs "u;").
Proof. repeat split. right. cbn. eexists _, _. split; [reflexivity|lia]. Qed.
Example c03_ex_run : scan_number32 true (zs "0x7fG") = Some (INTEGER_HEX, -127, zs "G")
  /\ scan_number32 true (zs "0178") = Some (INTEGER_OCT, -15, zs "8")
  /\ scan_number32 true (zs "42+1") = Some (INTEGER, -42, zs "+1").
Proof. repeat split; reflexivity. Qed.
Example c03_ex_suffix : In (suffix_letters (zs "uLL"), INTEGER_ULL) suffix_table.
Proof. cbn. auto. Qed.

(** ** C04 *)
Theorem c04_escape : forall e v rest,
  escape e v rest -> get_string_char (e ++ rest) = Some (v, rest).
Proof. exact get_string_char_escape. Qed.

(** A whole string literal (opening quote already read). *)
Theorem c04_string_body : forall s bytes rest,
  lit_body 34 s bytes rest ->
  accum_string_until 34 (s ++ 34 :: rest) = Some (bytes, rest).
Proof. intros. apply accum_until_go with (1 := H); [lia|auto]. Qed.

(** A character literal made of one escape or of one ordinary character. *)
Theorem c04_char_escape : forall e v rest,
  escape e v (39 :: rest) -> char_literal (e ++ 39 :: rest) = Some (v, rest).
Proof. intros e v rest H. unfold char_literal. now rewrite (get_string_char_escape _ _ _ H). Qed.
Theorem c04_char_plain : forall c rest, c <> 92 -> char_literal (c :: 39 :: rest) = Some (c, rest).
Proof.
  intros c rest H. unfold char_literal, get_string_char.
  destruct (Z.eqb_spec c 92); [contradiction|reflexivity].
Qed.

(** C allows any number of hexadecimal digits in an escape; pnut stops after two, so the
    literal "\x041" (which C reads as the one character 0x41) is misread. *)
Theorem c04_long_hex_refuted : ~ (forall ds v rest,
  numeral_value 16 ds = Some v -> v < 256 -> no_more 16 rest ->
  get_string_char (92 :: 120 :: ds ++ rest) = Some (v, rest)).
Proof.
  intros H. specialize (H (zs "041") 65 [34] eq_refl ltac:(lia) eq_refl).
  vm_compute in H. discriminate.
Qed.

Example c04_ex : lit_body 34 (zs "a\n\101\x7f.") [97; 10; 65; 127; 46] (zs ";").
Proof.
  cbn. apply lit_plain; [lia|lia|].
  apply (lit_esc 34 [92; 110]); [constructor; cbn; auto 10|].
  apply (lit_esc 34 [92; 49; 48; 49] (65 mod 256)).
  { apply esc_octal; [reflexivity|cbn; lia|cbn; lia]. }
  apply (lit_esc 34 [92; 120; 55; 102] 127).
  { apply esc_hex; [auto|reflexivity|cbn; lia|reflexivity]. }
  apply lit_plain; [lia|lia|]. constructor.
Qed.

(** ** C11 *)
Theorem c11_paste_integers_partial : forall l r dl dr v,
  denotes 10 dl l -> denotes 10 dr r -> 0 < l -> 0 < r ->
  denotes 10 (dl ++ dr) v -> v < 2147483648 ->
  paste_integers l r = Some v.
Proof. exact paste_ok. Qed.

Theorem c11_paste_zero_refuted : ~ (forall l r dl dr v,
  denotes 10 dl l -> denotes 10 dr r -> 0 < l -> 0 <= r ->
  denotes 10 (dl ++ dr) v -> v < 2147483648 ->
  paste_integers l r = Some v).
Proof.
  intros H. assert (E : paste_integers 1 0 = Some 10); [|vm_compute in E; discriminate].
  apply (H 1 0 [49] [48] 10); try lia; (split; [reflexivity|]).
  - right. exists 49, []. split; [reflexivity|discriminate].
  - left. reflexivity.
  - right. exists 49, [48]. split; [reflexivity|discriminate].
Qed.

Example c11_ex : paste_integers 12 345 = Some 12345.
Proof. reflexivity. Qed.

Print Assumptions c01_putint_denotes.
Print Assumptions c02_mul_partial.
Print Assumptions c03_decimal.
Print Assumptions c03_hex64.
Print Assumptions c03_decimal64_partial.
Print Assumptions c04_string_body.
Print Assumptions c11_paste_integers_partial.
