(** * Properties C39-C43: the bundled C library (portable_libc) *)
From Coq Require Import ZArith List Lia Bool String.
From Verif Require Import Base Numerals Output Libc LibcNum.
Import ListNotations.
Open Scope Z_scope.
Local Notation length := List.length.
Local Notation concat := List.concat.

(** ** C39: memory and string functions *)
Theorem c39_memset : forall m s c n x,
  memset m s c n x = if (s <=? x) && (x <? s + Z.of_nat n) then to_char c else m x.
Proof. intros. apply memset_ok. Qed.

Theorem c39_memcpy : forall m d s n x,
  (d + Z.of_nat n <= s \/ s + Z.of_nat n <= d) ->
  memcpy m d s n x = if (d <=? x) && (x <? d + Z.of_nat n) then m (s + (x - d)) else m x.
Proof. intros. apply memcpy_ok. lia. Qed.

(** Also when the regions overlap. *)
Theorem c39_memmove : forall m d s n x,
  memmove m d s n x = if (d <=? x) && (x <? d + Z.of_nat n) then m (s + (x - d)) else m x.
Proof. intros. apply memmove_ok. Qed.

Theorem c39_memcmp : forall m l r n, chars m ->
  (memcmp m l r n = 0 <-> (forall i, 0 <= i < Z.of_nat n -> m (l + i) = m (r + i))) /\
  (forall k, 0 <= k < Z.of_nat n -> (forall i, 0 <= i < k -> m (l + i) = m (r + i)) ->
     m (l + k) <> m (r + k) -> memcmp m l r n = uchar (m (l + k)) - uchar (m (r + k))).
Proof.
  intros m l r n Hc. split; [split|].
  - intros E.
    assert (D : forall k, (k <= n)%nat -> forall i, 0 <= i < Z.of_nat k -> m (l + i) = m (r + i)).
    { induction k as [|k IH]; intros Hk i Hi; [lia|].
      destruct (Z.eq_dec i (Z.of_nat k)) as [->|]; [|apply IH; lia].
      destruct (Z.eq_dec (m (l + Z.of_nat k)) (m (r + Z.of_nat k))) as [|Hd]; [assumption|exfalso].
      rewrite (memcmp_diff n m l r (Z.of_nat k)) in E; [|lia|intros j Hj; apply IH; lia|exact Hd].
      apply (uchar_diff_nonzero _ _ (Hc (l + Z.of_nat k)) (Hc (r + Z.of_nat k)) Hd). lia. }
    intros i Hi. apply (D n); lia.
  - apply memcmp_eq.
  - intros. now apply memcmp_diff.
Qed.

Theorem c39_strlen : forall m p s fuel, cstr m p s -> (length s < fuel)%nat ->
  strlen fuel m p = Some (Z.of_nat (length s)).
Proof.
  intros. unfold strlen. rewrite (strlen_scan_ok s) by assumption. f_equal. lia.
Qed.

Theorem c39_strcpy : forall m d p s fuel, cstr m p s -> (length s < fuel)%nat ->
  (d + Z.of_nat (length s) < p \/ p + Z.of_nat (length s) < d) ->
  exists m', strcpy fuel m d p = Some m' /\ cstr m' d s /\
    (forall x, x < d \/ d + Z.of_nat (length s) < x -> m' x = m x).
Proof. intros. apply strcpy_ok; auto. lia. Qed.

Theorem c39_strcat : forall m d p a b fuel, cstr m d a -> cstr m p b ->
  (length a + length b < fuel)%nat ->
  (d + Z.of_nat (length a) + Z.of_nat (length b) < p \/
   p + Z.of_nat (length b) < d + Z.of_nat (length a)) ->
  exists m', strcat fuel m d p = Some m' /\ cstr m' d (a ++ b) /\
    (forall x, x < d \/ d + Z.of_nat (length a + length b) < x -> m' x = m x).
Proof. intros. now apply strcat_ok. Qed.

(** The first occurrence; the terminator is found for 0; null when absent. *)
Theorem c39_strchr : forall m p c fuel,
  (forall s1 s2, cstr m p (s1 ++ c :: s2) -> ~ In c s1 -> (length s1 < fuel)%nat ->
     strchr fuel m p c = Some (p + Z.of_nat (length s1))) /\
  (forall s, cstr m p s -> ~ In c s -> (length s < fuel)%nat ->
     strchr fuel m p c = Some (if c =? 0 then p + Z.of_nat (length s) else 0)).
Proof. intros. split; intros. - eapply strchr_found; eauto. - now apply strchr_absent. Qed.

(** The last occurrence. *)
Theorem c39_strrchr : forall m p c fuel,
  (forall s1 s2, cstr m p (s1 ++ c :: s2) -> ~ In c s2 -> (length s1 + length s2 + 1 < fuel)%nat ->
     strrchr fuel m p c = Some (p + Z.of_nat (length s1))) /\
  (forall s, cstr m p s -> ~ In c s -> (length s < fuel)%nat ->
     strrchr fuel m p c = Some (if c =? 0 then p + Z.of_nat (length s) else 0)).
Proof.
  intros. split; intros; unfold strrchr.
  - eapply strrchr_loop_found; eauto.
  - now apply strrchr_loop_absent.
Qed.

(** C converts the second argument to [char]; the code does not, so a byte >= 128 passed as its
    unsigned value is never found. *)
Theorem c39_strchr_unsigned_refuted :
  exists m p s1 c s2 fuel, cstr m p (s1 ++ to_char c :: s2) /\ 0 <= c < 256 /\
    strchr fuel m p c = Some 0.
Proof.
  exists (fun x => if x =? 100 then 97 else if x =? 101 then -56 else 0), 100, [97], 200, [], 10%nat.
  split; [|split; [lia|vm_compute; reflexivity]].
  repeat (apply cstr_cons; split; [vm_compute; discriminate|split; [vm_compute; reflexivity|]]).
  apply cstr_nil. vm_compute. reflexivity.
Qed.

Theorem c39_strcmp : forall m l r a b fuel, cstr m l a -> cstr m r b -> (length a < fuel)%nat ->
  (a = b -> strcmp fuel m l r = Some 0) /\
  (forall x y, first_diff a b = Some (x, y) -> strcmp fuel m l r = Some (uchar x - uchar y)).
Proof.
  intros m l r a b fuel Ha Hb Hf. split.
  - intros <-. eapply strcmp_eq; eauto.
  - intros. eapply strcmp_diff; eauto.
Qed.

(** [first_diff] is what its name says. *)
Theorem c39_first_diff : forall a b,
  (first_diff a b = None <-> a = b) /\
  (forall x y, first_diff a b = Some (x, y) ->
     exists p a' b', a = p ++ a' /\ b = p ++ b' /\ x = hd 0 a' /\ y = hd 0 b' /\
       (a' = [] /\ b' <> [] \/ a' <> [] /\ b' = [] \/ a' <> [] /\ b' <> [] /\ x <> y)).
Proof.
  induction a as [|x a IH]; intros [|y b]; cbn [first_diff].
  - split; [tauto|discriminate].
  - split; [split; discriminate|]. intros ? ? [= <- <-]. exists [], [], (y :: b). cbn.
    repeat split; auto. left. split; [reflexivity|discriminate].
  - split; [split; discriminate|]. intros ? ? [= <- <-]. exists [], (x :: a), []. cbn.
    repeat split; auto. right. left. split; [discriminate|reflexivity].
  - destruct (Z.eqb_spec x y) as [->|Hne].
    + destruct (IH b) as (I1 & I2). split.
      * rewrite I1. split; [congruence|]. now intros [= ->].
      * intros u v E. destruct (I2 u v E) as (p & a' & b' & -> & -> & R). exists (y :: p), a', b'.
        cbn. tauto.
    + split; [split; [discriminate|congruence]|]. intros ? ? [= <- <-].
      exists [], (x :: a), (y :: b). cbn. repeat split; auto. right. right.
      repeat split; [discriminate|discriminate|assumption].
Qed.

(** Non-vacuity: "ab\xC8" at 100, "abc" at 200. *)
Definition exm : mem := fun x => match
  lookupZ [(100, 97); (101, 98); (102, -56); (200, 97); (201, 98); (202, 99)] x with Some v => v | None => 0 end.
Example c39_ex : cstr exm 100 [97; 98; -56] /\ cstr exm 200 [97; 98; 99] /\ chars exm /\
  strcmp 10 exm 100 200 = Some (200 - 99) /\ memcmp exm 100 200 3 = 101 /\
  memmove exm 101 100 2 102 = 98 /\ strrchr 10 exm 200 98 = Some 201.
Proof.
  repeat split; try (repeat constructor; discriminate); try (vm_compute; reflexivity).
  - intros i Hi. cbn [List.length] in Hi.
    assert (i = 0 \/ i = 1 \/ i = 2) as [-> | [-> | ->]] by lia; reflexivity.
  - intros i Hi. cbn [List.length] in Hi.
    assert (i = 0 \/ i = 1 \/ i = 2) as [-> | [-> | ->]] by lia; reflexivity.
  - unfold exm, lookupZ. bdestr; lia.
  - unfold exm, lookupZ. bdestr; lia.
Qed.

(** ** C40: strtol, atoi *)

(** A number preceded by [k] spaces and an optional sign is stored at [p]. *)
Definition at_number (m : mem) (p : Z) (k : nat) (sg : list Z) : Prop :=
  (forall i, 0 <= i < Z.of_nat k -> 0 < m (p + i) <= 32) /\
  (sg = [] \/ sg = [43] \/ sg = [45]) /\
  (forall i, 0 <= i < Z.of_nat (length sg) -> m (p + Z.of_nat k + i) = nth (Z.to_nat i) sg 0).

Lemma strtol_start m p k sg c : at_number m p k sg ->
  let q := p + Z.of_nat k + Z.of_nat (length sg) in
  m q = c -> c = 0 \/ 43 < c -> c <> 45 ->
  exists q0 neg, (forall fuel, (k < fuel)%nat -> skip_spaces fuel m p = Some q0) /\
    (forall base, strtol_prefix m q0 base =
       if c =? 48 then
         if (base =? 0) || (base =? 16) then
           if m (q + 1) =? 120 then (neg, q + 2, 16, 0)
           else if base =? 0 then (neg, q + 1, 8, 1) else (neg, q + 1, base, 1)
         else (neg, q + 1, base, 1)
       else (neg, q, base, 0)) /\ (neg = true <-> sg = [45]).
Proof.
  intros (Hs & Hsg & Hr) q Hc Hc0 Hc45. unfold q in *.
  assert (Hsk : m (p + Z.of_nat k) = 0 \/ 32 < m (p + Z.of_nat k)).
  { destruct Hsg as [-> | [-> | ->]]; cbn [List.length] in *.
    - change (Z.of_nat 0) with 0 in *. rewrite Z.add_0_r in *. lia.
    - specialize (Hr 0 ltac:(lia)). rewrite Z.add_0_r in Hr. rewrite Hr. cbn. lia.
    - specialize (Hr 0 ltac:(lia)). rewrite Z.add_0_r in Hr. rewrite Hr. cbn. lia. }
  exists (p + Z.of_nat k), (match sg with [45] => true | _ => false end).
  split; [|split].
  - intros fuel Hf. now apply skip_spaces_ok.
  - intros base. unfold strtol_prefix. destruct Hsg as [-> | [-> | ->]]; cbn [List.length] in *.
    + change (Z.of_nat 0) with 0 in *. rewrite !Z.add_0_r in *. rewrite !Hc.
      destruct (Z.eqb_spec c 45); [contradiction|]. destruct (Z.eqb_spec c 43); [lia|]. cbn [orb].
      rewrite Hc. replace (p + Z.of_nat k + 1 + 1) with (p + Z.of_nat k + 2) by lia. reflexivity.
    + specialize (Hr 0 ltac:(lia)). rewrite Z.add_0_r in Hr. rewrite Hr. change (Z.of_nat 1) with 1 in *.
      cbn [nth Z.to_nat Z.eqb Pos.eqb orb]. rewrite Hc.
      replace (p + Z.of_nat k + 1 + 1 + 1) with (p + Z.of_nat k + 1 + 2) by lia. reflexivity.
    + specialize (Hr 0 ltac:(lia)). rewrite Z.add_0_r in Hr. rewrite Hr. change (Z.of_nat 1) with 1 in *.
      cbn [nth Z.to_nat Z.eqb Pos.eqb orb]. rewrite Hc.
      replace (p + Z.of_nat k + 1 + 1 + 1) with (p + Z.of_nat k + 1 + 2) by lia. reflexivity.
  - destruct Hsg as [-> | [-> | ->]]; split; try discriminate; reflexivity.
Qed.

(** The full claim would be that a number is read and the call returns.  In fact a call on a number
    whose first digit is not 0 never returns, in any base. *)
Theorem c40_strtol_refuted : forall m p k sg d base, at_number m p k sg ->
  2 <= base <= 36 -> digit_of (m (p + Z.of_nat k + Z.of_nat (length sg))) = Some d -> 0 < d < base ->
  forall fuel, strtol fuel m p base = None.
Proof.
  intros m p k sg d base Hn Hb Hd Hr fuel.
  set (c := m (p + Z.of_nat k + Z.of_nat (length sg))) in *.
  assert (Hc : 49 <= c).
  { unfold digit_of in Hd. bdestr; cbn [andb] in Hd; try discriminate; injection Hd as Hd; lia. }
  destruct (strtol_start m p k sg c Hn) as (q0 & neg & Hs & Hp & _); [reflexivity|lia|lia|].
  unfold strtol. destruct (skip_spaces fuel m p) as [q1|] eqn:E; [|reflexivity].
  assert (q1 = q0) as ->.
  { pose proof (skip_spaces_mono _ _ _ _ (fuel + S k)%nat E ltac:(lia)) as E1.
    rewrite (Hs (fuel + S k)%nat ltac:(lia)) in E1. congruence. }
  rewrite Hp. destruct (Z.eqb_spec c 48); [lia|].
  rewrite strtol_digits_diverge; [reflexivity|].
  fold c. rewrite (strtol_digit_of _ _ Hd). lia.
Qed.

Example c40_refuted_ex : at_number (fun x => if x =? 0 then 32 else if x =? 1 then 45 else if x =? 2 then 55 else 0) 0 1 [45].
Proof.
  repeat split; auto.
  - assert (i = 0) as -> by (cbn in *; lia). reflexivity.
  - assert (i = 0) as -> by (cbn in *; lia). cbn. lia.
  - intros i Hi. assert (i = 0) as -> by (cbn in *; lia). reflexivity.
Qed.

(** What does hold: without a digit the result is 0 and [*endptr] is the start; the single digit 0
    (in any base, not a prefix) gives 0 and [*endptr] is after it. *)
Theorem c40_strtol_partial : forall m p k sg base fuel, at_number m p k sg ->
  let q := p + Z.of_nat k + Z.of_nat (length sg) in
  (k < fuel)%nat ->
  ((2 <= base <= 36 -> m q = 0 \/ 45 < m q -> ~ is_digit base (m q) -> m q <> 48 ->
     strtol fuel m p base = Some (0, p)) /\
   (base = 0 \/ 2 <= base <= 36 -> m q = 48 -> ~ is_digit (if base =? 0 then 8 else base) (m (q + 1)) ->
     m (q + 1) <> 120 -> strtol fuel m p base = Some (0, q + 1))).
Proof.
  intros m p k sg base fuel Hn q Hf.
  assert (NODIG : forall b c, 2 <= b <= 36 -> ~ is_digit b c -> b <= strtol_digit c).
  { intros b c Hb Hnd. destruct (digit_of c) as [d|] eqn:E.
    - rewrite (strtol_digit_of _ _ E). destruct (Z.le_gt_cases b d); [assumption|].
      exfalso. apply Hnd. exists d. split; [exact E|]. apply digit_of_nonneg in E. lia.
    - rewrite (strtol_digit_not _ E). lia. }
  split.
  - intros Hb Hq Hnd H48.
    destruct (strtol_start m p k sg (m q) Hn) as (q0 & neg & Hs & Hp & _); [reflexivity|lia|lia|].
    unfold strtol. rewrite (Hs fuel Hf), Hp. destruct (Z.eqb_spec (m q) 48); [contradiction|].
    fold q. rewrite strtol_digits_stop; [|now apply NODIG|lia]. destruct neg; reflexivity.
  - intros Hb Hq Hnd H120.
    destruct (strtol_start m p k sg 48 Hn Hq) as (q0 & neg & Hs & Hp & _); [lia|lia|].
    unfold strtol. rewrite (Hs fuel Hf), Hp. fold q. rewrite Z.eqb_refl.
    destruct (Z.eqb_spec (m (q + 1)) 120); [contradiction|].
    destruct (Z.eqb_spec base 0) as [->|Hb0].
    + cbn [orb]. rewrite strtol_digits_stop; [|apply NODIG; [lia|assumption]|lia]. destruct neg; reflexivity.
    + assert (Hb' : 2 <= base <= 36) by lia.
      destruct (base =? 16); cbn [orb];
        (rewrite strtol_digits_stop; [|now apply NODIG|lia]); destruct neg; reflexivity.
Qed.

(** ** C41: number formatting *)
(** _int_to_str never leaves its buffer and produces the padded numeral, for every int, every
    supported base and every width (widths above 99 act like 99). *)
Theorem c41_int_to_str : forall n base width zero plus, int_range n -> 2 <= base <= 16 ->
  exists s, int_to_str n base width zero plus = Some (s ++ [0]) /\
            formatted base n (Z.min width 99) zero plus s.
Proof. intros. now apply int_to_str_ok. Qed.

(** printf on every format made of ordinary characters, %% and conversions with 0 flag, width and
    length modifiers prints what the C standard says, provided %c and %s have no width, widths are
    below 100 and the arguments of %u, %o, %x are not negative. *)
Theorem c41_printf_partial : forall ps args fuel, format_ok ps args -> (length ps < fuel)%nat ->
  exists out, vfprintf fuel (concat (map piece_text ps)) args = Some out /\ format_spec ps args out.
Proof. intros. now apply format_ok_printed. Qed.

(** The restrictions are necessary: %x of -1 prints "-1", and the width of %s is ignored. *)
Theorem c41_unsigned_refuted : exists ps args, (forall out, format_spec ps args out -> length out = 8%nat) /\
  vfprintf 10 (concat (map piece_text ps)) args = Some (zs "-1") /\
  exists out, format_spec ps args out.
Proof.
  exists [PConv false [] 0 Cx], [AInt (-1)].
  assert (D : denotes 16 (zs "ffffffff") 4294967295).
  { split; [vm_compute; reflexivity|]. right. exists 102, (zs "fffffff"). split; [reflexivity|lia]. }
  split; [|split; [vm_compute; reflexivity|]].
  - intros out H. inversion H as [|p ps args o rest o' Hp Hs]; subst. inversion Hs; subst.
    cbn [piece_spec] in Hp. destruct Hp as (wv & Hw & (ds & Hd & Ho) & _). cbn in Hw. subst wv.
    change (-1 mod 4294967296) with 4294967295 in *. change (Z.abs 4294967295) with 4294967295 in Hd.
    assert (length ds = 8%nat).
    { destruct Hd as (Hv & Hc).
      assert (L : forall l v acc, value_from 16 acc l = Some v -> 1 <= acc ->
                acc * 16 ^ Z.of_nat (length l) <= v < (acc + 1) * 16 ^ Z.of_nat (length l)).
      { clear. induction l as [|c l IH]; intros v acc Hv Ha.
        - injection Hv as <-. cbn. lia.
        - cbn [value_from] in Hv. destruct (digit_of c) as [d|] eqn:Ed; [|discriminate].
          destruct (Z.ltb_spec d 16); [|discriminate]. apply digit_of_nonneg in Ed as Hd.
          apply IH in Hv; [|lia]. cbn [List.length]. rewrite Nat2Z.inj_succ, Z.pow_succ_r by lia.
          pose proof (Z.pow_pos_nonneg 16 (Z.of_nat (length l)) ltac:(lia) ltac:(lia)). nia. }
      destruct Hc as [->|(c & r & -> & Hne)]; [vm_compute in Hv; discriminate|].
      cbn [numeral_value value_from] in Hv. destruct (digit_of c) as [d|] eqn:Ed; [|discriminate].
      destruct (Z.ltb_spec d 16); [|discriminate].
      assert (1 <= d).
      { unfold digit_of in Ed. bdestr; cbn [andb] in Ed; try discriminate; injection Ed as Ed; lia. }
      apply L in Hv; [|lia]. cbn [List.length]. f_equal.
      set (n := length r) in *. clearbody n.
      assert (n < 8)%nat.
      { destruct (Nat.lt_ge_cases n 8); [assumption|exfalso].
        pose proof (Z.pow_le_mono_r 16 8 (Z.of_nat n) ltac:(lia) ltac:(lia)).
        change (16 ^ 8) with 4294967296 in *. nia. }
      assert (~ (n < 7)%nat).
      { intros Hn. pose proof (Z.pow_le_mono_r 16 (Z.of_nat n) 6 ltac:(lia) ltac:(lia)).
        change (16 ^ 6) with 16777216 in *. nia. }
      lia. }
    rewrite app_nil_r, Ho. unfold sign_chars. rewrite app_nil_l || idtac.
    change (4294967295 <? 0) with false. cbn [app List.length].
    replace (Z.to_nat (0 - Z.of_nat 0 - Z.of_nat (length ds))) with O by lia. cbn [repeat app]. exact H0.
  - eexists. econstructor; [|constructor]. cbn [piece_spec]. exists 0. split; [reflexivity|].
    split; [|reflexivity]. exists (zs "ffffffff"). split; [exact D|]. reflexivity.
Qed.

Theorem c41_width_refuted : exists ps args out, format_spec ps args out /\
  vfprintf 10 (concat (map piece_text ps)) args <> Some out /\
  out = zs "   ab".
Proof.
  exists [PConv false (zs "5") 0 Cs], [AStr (zs "ab")], (zs "   ab" ++ []).
  split; [|split; [vm_compute; discriminate|reflexivity]].
  constructor 2 with (rest := []); [|constructor]. exists 5. split.
  - split; [|lia]. split; [reflexivity|]. right. exists 53, []. split; [reflexivity|lia].
  - split; reflexivity.
Qed.

(** Non-vacuity: "n=%05d|%lx|%s%%" with -42, 255, "ok". *)
Definition ex_pieces := map PChar (zs "n=") ++ [PConv true (zs "5") 0 Cd; PChar 124; PConv false [] 1 Cx; PChar 124; PConv false [] 0 Cs; PPercent].
Definition ex_args := [AInt (-42); AInt 255; AStr (zs "ok")].
Example c41_ex : format_ok ex_pieces ex_args /\
  vfprintf 20 (concat (map piece_text ex_pieces)) ex_args = Some (zs "n=-0042|ff|ok%").
Proof.
  split; [|vm_compute; reflexivity].
  unfold ex_pieces, ex_args. cbn [zs map app].
  do 2 (econstructor; [split; vm_compute; discriminate|split; reflexivity|]).
  assert (D5 : width_value (zs "5") 5).
  { split; [|lia]. split; [reflexivity|]. right. exists 53, []. split; [reflexivity|lia]. }
  econstructor.
  - cbn [piece_ok]. split; [|split; [exists 5; split; [exact D5|lia]|unfold int_range; lia]].
    apply Forall_cons; [vm_compute; split; discriminate|apply Forall_nil].
  - cbn [piece_spec]. exists 5. split; [exact D5|]. split; [|reflexivity]. exists (zs "42").
    split; [|reflexivity]. split; [reflexivity|]. right. exists 52, [50]. split; [reflexivity|lia].
  - econstructor; [cbn; lia|split; reflexivity|]. econstructor.
    + cbn [piece_ok]. split; [apply Forall_nil|]. split; [exists 0; split; [reflexivity|lia]|lia].
    + cbn [piece_spec]. exists 0. split; [reflexivity|]. split; [|reflexivity]. exists (zs "ff").
      split; [|reflexivity]. split; [reflexivity|]. right. exists 102, [102]. split; [reflexivity|lia].
    + econstructor; [cbn; lia|split; reflexivity|]. econstructor.
      * cbn [piece_ok]. split; [apply Forall_nil|]. split; [exists 0; split; [reflexivity|lia]|]. split; [reflexivity|]. repeat (apply Forall_cons; [vm_compute; discriminate|]); apply Forall_nil.
      * cbn [piece_spec]. exists 0. split; [reflexivity|]. split; reflexivity.
      * econstructor; [exact I|split; reflexivity|constructor].
Qed.

(** ** C43: snprintf *)
(** With a nonempty buffer, snprintf stores the output cut to [size - 1] characters and a NUL,
    touches nothing else, and returns the length of the whole output. *)
Theorem c43_snprintf : forall fuel m str size fmt args o, 1 <= size ->
  vfprintf fuel fmt args = Some o ->
  exists m', snprintf fuel m str size fmt args = Some (m', Z.of_nat (length o)) /\
    (forall i, 0 <= i < Z.min (size - 1) (Z.of_nat (length o)) ->
        m' (str + i) = to_char (nth (Z.to_nat i) o 0)) /\
    m' (str + Z.min (size - 1) (Z.of_nat (length o))) = 0 /\
    (forall x, x < str \/ str + Z.min (size - 1) (Z.of_nat (length o)) < x -> m' x = m x).
Proof. exact snprintf_ok. Qed.

(** With size 0, C promises that nothing is written; the code writes a NUL. *)
Theorem c43_size0_refuted : exists m str fmt args m' n,
  snprintf 10 m str 0 fmt args = Some (m', n) /\ m' str <> m str.
Proof.
  exists (fun _ => 7), 100, (zs "a"), [], (upd (fun _ => 7) 100 0), 1.
  split; [reflexivity|]. rewrite upd_same. discriminate.
Qed.

Example c43_ex : vfprintf 20 (zs "%d!") [AInt 12345] = Some (zs "12345!") /\
  match snprintf 20 (fun _ => 7) 0 4 (zs "%d!") [AInt 12345] with
  | Some (m', n) => map m' [0; 1; 2; 3; 4] = [49; 50; 51; 0; 7] /\ n = 6
  | None => False
  end.
Proof. split; [vm_compute; reflexivity|vm_compute; split; reflexivity]. Qed.

(** ** C42: malloc *)
(** For requests below 2^64 - 10^6: allocated blocks are inside the heap and pairwise disjoint
    (in fact increasing), and a request fails exactly when it does not fit in what is left. *)
Theorem c42_malloc_partial : forall sizes a2 ok ko,
  Forall (fun s => 0 <= s < 18446744073708551616) sizes ->
  malloc_run 0 sizes = (a2, ok, ko) ->
  (forall p s, In (p, s) ok -> 0 <= p /\ p + s <= LIBC_HEAP) /\
  (forall i j p s q t, (i < j)%nat -> nth_error ok i = Some (p, s) -> nth_error ok j = Some (q, t) ->
     p + s <= q).
Proof.
  intros sizes a2 ok ko F E. pose proof (malloc_run_ok sizes 0 ltac:(unfold LIBC_HEAP; lia) F) as H.
  rewrite E in H. destruct H as (B & I & D). split; [|exact D].
  intros p s Hin. apply I in Hin. lia.
Qed.

Theorem c42_malloc_fails_iff : forall alloc s, 0 <= alloc <= LIBC_HEAP ->
  0 <= s < 18446744073708551616 ->
  (snd (malloc alloc s) = None <-> LIBC_HEAP < alloc + s).
Proof.
  intros. rewrite malloc_spec by assumption. destruct (Z.ltb_spec LIBC_HEAP (alloc + s)); cbn [snd];
  split; try discriminate; try reflexivity; lia.
Qed.

(** A huge request wraps around, "succeeds", and makes the next block overlap a live one. *)
Theorem c42_huge_refuted : exists sizes a2 ok ko p s q t,
  malloc_run 0 sizes = (a2, ok, ko) /\ nth_error ok 0 = Some (p, s) /\ nth_error ok 2 = Some (q, t) /\
  p <= q < p + s.
Proof.
  exists [10; 18446744073709551611; 10]. eexists _, _, _, 0, 10, 5, 10.
  split; [vm_compute; reflexivity|]. split; [reflexivity|]. split; [reflexivity|lia].
Qed.

Example c42_ex : malloc_run 0 [10; 1000000; 20] = (30, [(0, 10); (10, 20)], [1000000]).
Proof. vm_compute. reflexivity. Qed.

Print Assumptions c39_memmove.
Print Assumptions c39_memcmp.
Print Assumptions c39_strcat.
Print Assumptions c39_strrchr.
Print Assumptions c39_strcmp.
Print Assumptions c40_strtol_refuted.
Print Assumptions c40_strtol_partial.
Print Assumptions c41_int_to_str.
Print Assumptions c41_printf_partial.
Print Assumptions c41_unsigned_refuted.
Print Assumptions c42_malloc_partial.
Print Assumptions c43_snprintf.
