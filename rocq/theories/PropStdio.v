(** * Properties C53 (ctype) and C54 (streams) of the bundled C library *)
From Coq Require Import ZArith List Lia Bool Ascii String.
From Verif Require Import Base Libc LibcNum Ctype Stdio.
Import ListNotations.
Open Scope Z_scope.
Local Notation length := List.length.

(** ** C53 *)
(** For every int: each function is nonzero exactly on the characters C names. *)
Theorem c53_classes : forall c,
  (isdigit c <> 0 <-> In c DIGITS) /\
  (isxdigit c <> 0 <-> In c DIGITS \/ In c (zs "abcdefABCDEF")) /\
  (islower c <> 0 <-> In c LOWER) /\
  (isupper c <> 0 <-> In c UPPER) /\
  (isalpha c <> 0 <-> In c LOWER \/ In c UPPER) /\
  (isalnum c <> 0 <-> In c DIGITS \/ In c LOWER \/ In c UPPER) /\
  (isspace c <> 0 <-> In c SPACE) /\
  (isprint c <> 0 <-> In c DIGITS \/ In c LOWER \/ In c UPPER \/ In c PUNCT \/ c = 32) /\
  (isgraph c <> 0 <-> In c DIGITS \/ In c LOWER \/ In c UPPER \/ In c PUNCT) /\
  (ispunct c <> 0 <-> In c PUNCT).
Proof.
  intros c. repeat apply conj; first [apply isdigit_ok|apply isxdigit_ok|apply islower_ok|apply isupper_ok|apply isalpha_ok|apply isalnum_ok|apply isspace_ok|apply isprint_ok|apply isgraph_ok|apply ispunct_ok].
Qed.
(** The lists are what they should be: 94 graphic characters without repetition, 33 control characters. *)
Theorem c53_ascii : (forall c, (In c DIGITS \/ In c LOWER \/ In c UPPER \/ In c PUNCT \/ c = 32 \/ In c CNTRL) <-> 0 <= c <= 127) /\
  NoDup (DIGITS ++ LOWER ++ UPPER ++ PUNCT) /\ length (DIGITS ++ LOWER ++ UPPER ++ PUNCT) = 94%nat.
Proof.
  split; [|split; [|reflexivity]].
  - intros c. rewrite in_digits, in_lower, in_upper, in_punct, in_cntrl. lia.
  - assert (E : nodup Z.eq_dec (DIGITS ++ LOWER ++ UPPER ++ PUNCT) = DIGITS ++ LOWER ++ UPPER ++ PUNCT) by (vm_compute; reflexivity).
    rewrite <- E. apply NoDup_nodup.
Qed.
(** Conversion of letters; every other int is left alone. *)
Theorem c53_case :
  (forall i, (i < 26)%nat -> tolower (nth i UPPER 0) = nth i LOWER 0 /\ toupper (nth i LOWER 0) = nth i UPPER 0) /\
  (forall c, ~ In c UPPER -> tolower c = c) /\ (forall c, ~ In c LOWER -> toupper c = c).
Proof.
  split; [|split].
  - intros i Hi. assert (A : nth i UPPER 0 = 65 + Z.of_nat i /\ nth i LOWER 0 = 97 + Z.of_nat i).
    { do 26 (destruct i as [|i]; [split; reflexivity|]). lia. }
    destruct A as [-> ->]. unfold tolower, toupper, isupper, islower.
    rewrite (proj2 (Z.leb_le 65 _)), (proj2 (Z.leb_le _ 90)), (proj2 (Z.leb_le 97 _)), (proj2 (Z.leb_le _ 122)) by lia. cbn [andb b2z Z.eqb]. lia.
  - intros c H. unfold tolower. destruct (Z.eqb_spec (isupper c) 0) as [|N]; [reflexivity|]. apply isupper_ok in N. contradiction.
  - intros c H. unfold toupper. destruct (Z.eqb_spec (islower c) 0) as [|N]; [reflexivity|]. apply islower_ok in N. contradiction.
Qed.
Theorem c53_cntrl_partial : forall c, c <> 127 -> (iscntrl c <> 0 <-> In c CNTRL).
Proof. exact iscntrl_ok. Qed.
(** DEL is a control character (and prints nothing), but [iscntrl] does not say so. *)
Theorem c53_cntrl_refuted : In 127 CNTRL /\ iscntrl 127 = 0 /\ isprint 127 = 0.
Proof. repeat split. apply in_cntrl. lia. Qed.

(** ** C54 *)
(** [wrote s s' fd l]: exactly the bytes [l] have been appended to [fd]; no other descriptor, no memory is touched. *)
Theorem c54_fputc : forall str bsize fd c s, fd <> -1 -> wrote s (fst (fputc str bsize fd c s)) fd [c mod 256].
Proof. intros. now apply fputc_wrote. Qed.
(** [fwrite]: the [size * nmemb] bytes at [p], in order; the result is [nmemb]. *)
Theorem c54_fwrite : forall str bsize fd p size nmemb s, fd <> -1 -> 0 <= size -> 0 <= nmemb -> size * nmemb < 2 ^ 64 ->
  exists l, wrote s (fst (fwrite str bsize fd p size nmemb s)) fd l /\ Z.of_nat (length l) = size * nmemb /\
    (forall i, 0 <= i < size * nmemb -> nth (Z.to_nat i) l 0 = (im s (p + i)) mod 256) /\
    snd (fwrite str bsize fd p size nmemb s) = nmemb.
Proof.
  intros str bsize fd p size nmemb s H H1 H2 H3. unfold fwrite. cbn [fst snd]. rewrite Z.mod_small by (unfold SIZE_MOD; nia).
  eexists. split; [apply fwrite_wrote, H|]. split; [rewrite map_length, seq_length; nia|]. split; [|reflexivity].
  intros i Hi. rewrite (nth_indep _ 0 ((fun i => uchar (im s (p + Z.of_nat i))) 0%nat)) by (rewrite map_length, seq_length; lia).
  rewrite (map_nth (fun i => uchar (im s (p + Z.of_nat i)))), seq_nth by lia. cbn [Nat.add]. rewrite Z2Nat.id by lia. reflexivity.
Qed.
(** [puts]: the string and a new-line, to standard output. *)
Theorem c54_puts : forall str bsize p l s fuel, cstr (im s) p l -> (length l < fuel)%nat ->
  exists s' r, puts fuel str bsize p s = Some (s', r) /\ 0 <= r /\ wrote s s' 1 (map uchar l ++ [10]).
Proof.
  intros str bsize p l s fuel Hc Hf. unfold puts, fputs. destruct (fputstr_wrote str bsize 1 ltac:(lia) l fuel p s Hc Hf) as (s1 & -> & W).
  eexists _, 0. split; [reflexivity|]. split; [lia|]. eapply wrote_trans; [exact W|]. apply (fputc_wrote _ _ _ 10). lia.
Qed.
(** [fputs] writes the string, but a new-line after it. *)
Theorem c54_fputs_partial : forall str bsize fd p l s fuel, fd <> -1 -> cstr (im s) p l -> (length l < fuel)%nat ->
  exists s' r, fputs fuel str bsize fd p s = Some (s', r) /\ 0 <= r /\ wrote s s' fd (map uchar l ++ [10]).
Proof.
  intros str bsize fd p l s fuel H Hc Hf. unfold fputs. destruct (fputstr_wrote str bsize fd H l fuel p s Hc Hf) as (s1 & -> & W).
  eexists _, 0. split; [reflexivity|]. split; [lia|]. eapply wrote_trans; [exact W|]. apply (fputc_wrote _ _ _ 10), H.
Qed.
Definition io0 : io := IO (fun _ => []) (fun _ => 0) 0.
Theorem c54_fputs_refuted : exists p l s s' r, cstr (im s) p l /\ fputs 10 0 0 2 p s = Some (s', r) /\ wr s 2 = [] /\ wr s' 2 <> map uchar l.
Proof.
  exists 100, [], io0, (fst (fputc 0 0 2 10 io0)), 0. split; [apply cstr_nil; reflexivity|]. split; [reflexivity|]. split; [reflexivity|]. discriminate.
Qed.
(** [fprintf]: the bytes are those of C41's text, the result their number. *)
Theorem c54_fprintf : forall str bsize fd fmt args o s fuel, fd <> -1 -> vfprintf fuel fmt args = Some o ->
  exists s', fprintf fuel str bsize fd fmt args s = Some (s', Z.of_nat (length o)) /\ wrote s s' fd (map uchar o).
Proof. intros str bsize fd fmt args o s fuel H E. unfold fprintf. rewrite E. eexists. split; [reflexivity|]. now apply fold_wrote. Qed.
(** [fputc] returns its argument, not the character written: for -1 that is EOF, the error indication, although the byte was written. *)
Theorem c54_fputc_result_partial : forall str bsize fd c s, 0 <= c < 256 -> snd (fputc str bsize fd c s) = c mod 256.
Proof. intros. unfold fputc. destruct (fd =? -1); [destruct (sfputc _ _ _ _)|]; cbn [snd]; rewrite Z.mod_small; lia. Qed.
Theorem c54_fputc_result_refuted : wrote io0 (fst (fputc 0 0 1 (-1) io0)) 1 [255] /\ snd (fputc 0 0 1 (-1) io0) = -1.
Proof. split; [apply (c54_fputc 0 0 1 (-1)); lia|reflexivity]. Qed.
(** No element is written when the size is 0: C's result is then 0. *)
Theorem c54_fwrite_size0_refuted : forall p s, snd (fwrite 0 0 1 p 0 3 s) = 3 /\ fst (fwrite 0 0 1 p 0 3 s) = s.
Proof. intros. split; reflexivity. Qed.

(** [fread]: the bytes that [read] delivers are stored at [data], nothing else changes, and the result is the number of
    complete elements among them. *)
Theorem c54_fread_partial : forall m data size count rest m' rest' r, 0 < size -> 0 <= count -> size * count < 2 ^ 63 ->
  fread m data size count rest m' rest' r ->
  r = Some ((2 ^ 64 - 1) / size) \/
  exists k, 0 <= k <= size * count /\ rest = firstn (Z.to_nat k) rest ++ rest' /\ Z.of_nat (length rest) = k + Z.of_nat (length rest') /\
    (forall i, 0 <= i < k -> m' (data + i) = to_char (nth (Z.to_nat i) rest 0)) /\ (forall x, x < data \/ data + k <= x -> m' x = m x) /\
    r = Some (k / size) /\ (0 < size * count -> rest <> [] -> 0 < k).
Proof.
  intros m data size count rest m' rest' r H1 H2 H3 (k0 & R & ->). rewrite Z.mod_small in R by (unfold SIZE_MOD; nia).
  unfold fread_result. rewrite (proj2 (Z.eqb_neq size 0)) by lia. inversion R as [k Hk Hl Hp|]; subst.
  - right. exists k0. rewrite Z.mod_small by (unfold SIZE_MOD; nia).
    assert (L : Z.of_nat (length (firstn (Z.to_nat k0) rest)) = k0) by (rewrite firstn_length_le by lia; lia).
    split; [lia|]. split; [symmetry; apply firstn_skipn|]. split; [rewrite skipn_length; lia|]. split; [|split; [|split; [reflexivity|exact Hp]]].
    + intros i Hi. rewrite store_at, L. rewrite (proj2 (Z.leb_le _ _)), (proj2 (Z.ltb_lt _ _)) by lia. cbn [andb].
      replace (data + i - data) with i by lia. f_equal. rewrite <- (firstn_skipn (Z.to_nat k0) rest) at 2. rewrite app_nth1 by lia. reflexivity.
    + intros x Hx. rewrite store_at, L. destruct (Z.leb_spec data x), (Z.ltb_spec x (data + k0)); cbn [andb]; try lia; reflexivity.
  - left. reflexivity.
Qed.
(** If the file delivers everything at once the result is C's: the number of elements, or all those left in the file. *)
Theorem c54_fread_full : forall m data size count rest, 0 < size -> 0 <= count -> size * count < 2 ^ 63 ->
  exists m' rest', fread m data size count rest m' rest' (Some (Z.min count (Z.of_nat (length rest) / size))).
Proof.
  intros m data size count rest H1 H2 H3. set (k := Z.min (size * count) (Z.of_nat (length rest))).
  exists (store m data (firstn (Z.to_nat k) rest)), (skipn (Z.to_nat k) rest), k. rewrite (Z.mod_small (size * count)) by (unfold SIZE_MOD; nia).
  assert (0 <= size * count) by nia.
  split.
  - constructor; [unfold k; lia|unfold k; lia|]. intros Hp Hr. unfold k. destruct rest; [congruence|]. cbn [length]. lia.
  - unfold fread_result. rewrite (proj2 (Z.eqb_neq size 0)) by lia. f_equal. rewrite Z.mod_small by (unfold k, SIZE_MOD; lia). unfold k.
    destruct (Z.leb_spec (size * count) (Z.of_nat (length rest))).
    + rewrite (Z.min_l (size * count)) by lia. rewrite Z.mul_comm, Z.div_mul by lia. apply Z.min_l. apply Z.div_le_lower_bound; lia.
    + rewrite (Z.min_r (size * count)) by lia. apply Z.min_r. apply Z.lt_le_incl, Z.div_lt_upper_bound; lia.
Qed.
(** One [read] may deliver less than the file has (a pipe): [fread] then reports the end of the file too early ... *)
Theorem c54_fread_short_refuted : exists m' rest', fread (fun _ => 0) 100 1 4 [65; 66; 67; 68] m' rest' (Some 1) /\ rest' = [66; 67; 68].
Proof.
  eexists _, _. split; [exists 1; split; [|reflexivity]|].
  - change ((1 * 4) mod SIZE_MOD) with 4. apply (sysread_ok _ _ _ _ 1); [lia|change (Z.of_nat (length [65; 66; 67; 68])) with 4; lia|intros; lia].
  - reflexivity.
Qed.
(** ... after an error it reports a number of elements read that exceeds the number requested ... *)
Theorem c54_fread_error_refuted : forall m rest, fread m 100 1 4 rest m rest (Some 18446744073709551615).
Proof. intros. exists (-1). split; [constructor|reflexivity]. Qed.
(** ... and for elements of size 0, where C's result is 0, it divides by zero. *)
Theorem c54_fread_size0_refuted : forall m rest m' rest' r, fread m 100 0 4 rest m' rest' r -> r = None.
Proof. intros m rest m' rest' r (k & _ & ->). reflexivity. Qed.
(** [fseek] returns the new offset; C says: 0 if it succeeds. *)
Theorem c54_fseek_refuted : lseek_set 10 = 10 /\ fseek_set 10 <> 0.
Proof. split; [reflexivity|discriminate]. Qed.

(** A concrete case: [puts("Hi")]. *)
Theorem c54_instance : exists s s', cstr (im s) 100 (zs "Hi") /\ puts 10 0 0 100 s = Some (s', 0) /\ wr s' 1 = zs "Hi" ++ [10].
Proof.
  exists (IO (fun _ => []) (fun x => if x =? 100 then 72 else if x =? 101 then 105 else 0) 0). eexists.
  split; [|split; [reflexivity|reflexivity]]. apply cstr_cons. split; [discriminate|]. split; [reflexivity|]. apply cstr_cons. split; [discriminate|]. split; [reflexivity|]. apply cstr_nil. reflexivity.
Qed.

Print Assumptions c53_classes.
Print Assumptions c53_case.
Print Assumptions c54_fwrite.
Print Assumptions c54_puts.
Print Assumptions c54_fprintf.
Print Assumptions c54_fread_partial.
Print Assumptions c54_fread_full.
