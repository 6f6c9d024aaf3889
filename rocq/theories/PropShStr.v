(* C20: string literals survive compilation to the shell.
   C25: character output writes the byte. *)
From Coq Require Import ZArith List Bool Lia.
From Verif Require Import Base Text ShStr ShHeap PropShHeap.
Import ListNotations.
Open Scope Z_scope.

Definition isbyte (c : Z) : Prop := 0 <= c < 256.

(* ---- exhaustive reasoning on one byte ---- *)
Definition all_bytes : list Z := map Z.of_nat (seq 0 256).
Lemma byte_in c : isbyte c -> In c all_bytes.
Proof.
  intros [H1 H2]. unfold all_bytes. apply in_map_iff. exists (Z.to_nat c). split; [lia|].
  apply in_seq. lia.
Qed.
Lemma bytes_forall (P : Z -> bool) : forallb P all_bytes = true -> forall c, isbyte c -> P c = true.
Proof. intros H c Hc. rewrite forallb_forall in H. apply H, byte_in, Hc. Qed.

(* ---- C20 ---- *)
(* the text written for a string literal between its double quotes (sh.c 253-265) *)
Definition literal_text (for_printf : bool) (s : list Z) : list Z :=
  flat_map (fun c => print_escaped_char c for_printf) s.

(* what the shell makes of the text of one byte *)
Definition one (fp : bool) (c : Z) : list Z :=
  match dquote (print_escaped_char c fp) with Some l => l | None => [] end.

Lemma opt_map_app {A} (a b : list A) (o : option (list A)) :
  option_map (app a) (option_map (app b) o) = option_map (app (a ++ b)) o.
Proof. destruct o; cbn [option_map]; [rewrite app_assoc|]; reflexivity. Qed.

(* escapes of one byte are self-delimiting for the shell *)
Ltac bytecases c H :=
  unfold print_escaped_char, one; cbv zeta; rewrite (Z.mod_small c 256 H : byte c = c).

Lemma print_cases c fp : isbyte c ->
  (exists d, print_escaped_char c fp = [92; d] /\ d <> 10 /\ (one fp c = [92; d] \/ (one fp c = [d] /\ (d = 36 \/ d = 96 \/ d = 34)))) \/
  (print_escaped_char c fp = [92; 92; 92; 92] /\ one fp c = [92; 92]) \/
  (fp = true /\ print_escaped_char c fp = [37; 37] /\ one fp c = [37; 37]) \/
  (print_escaped_char c fp = [c] /\ one fp c = [c] /\ c <> 92 /\ c <> 36 /\ c <> 96 /\ c <> 34).
Proof.
  intros H.
  set (P := fun c =>
    match print_escaped_char c fp with
    | [a; b] =>
       if a =? 92 then negb (b =? 10) && (match one fp c with [x] => (x =? b) && ((b =? 36) || (b =? 96) || (b =? 34))
                                          | [x; y] => (x =? 92) && (y =? b) | _ => false end)
       else fp && (a =? 37) && (b =? 37) && match one fp c with [x; y] => (x =? 37) && (y =? 37) | _ => false end
    | [a; b; d; e] => (a =? 92) && (b =? 92) && (d =? 92) && (e =? 92) && match one fp c with [x; y] => (x =? 92) && (y =? 92) | _ => false end
    | [a] => (a =? c) && match one fp c with [x] => x =? c | _ => false end && negb (c =? 92) && negb (c =? 36) && negb (c =? 96) && negb (c =? 34)
    | _ => false end).
  assert (HP : P c = true).
  { apply bytes_forall; [|assumption]. destruct fp; vm_compute; reflexivity. }
  unfold P in HP. clear P.
  destruct (print_escaped_char c fp) as [|a [|b [|d [|e [|? ?]]]]] eqn:E; try discriminate.
  - right; right; right. rewrite !andb_true_iff, !negb_true_iff, !Z.eqb_neq, Z.eqb_eq in HP.
    destruct HP as (((((-> & H1) & H2) & H3) & H4) & H5).
    destruct (one fp c) as [|x [|? ?]]; try discriminate. apply Z.eqb_eq in H1. subst x. auto 10.
  - destruct (Z.eqb_spec a 92) as [->|].
    + left. exists b. rewrite !andb_true_iff, negb_true_iff, Z.eqb_neq in HP. destruct HP as [H1 H2].
      split; [reflexivity|]. split; [assumption|].
      destruct (one fp c) as [|x [|y [|? ?]]]; try discriminate.
      * right. rewrite andb_true_iff, !orb_true_iff, !Z.eqb_eq in H2. destruct H2 as [-> H2]. split; [reflexivity|tauto].
      * left. rewrite andb_true_iff, !Z.eqb_eq in H2. destruct H2 as [-> ->]. reflexivity.
    + right; right; left. rewrite !andb_true_iff, !Z.eqb_eq in HP. destruct HP as [[[-> ->] ->] HP].
      split; [reflexivity|]. split; [reflexivity|].
      destruct (one true c) as [|x [|y [|? ?]]]; try discriminate.
      rewrite andb_true_iff, !Z.eqb_eq in HP. destruct HP as [-> ->]. reflexivity.
  - right; left. rewrite !andb_true_iff, !Z.eqb_eq in HP. destruct HP as [[[[-> ->] ->] ->] HP].
    split; [reflexivity|].
    destruct (one fp c) as [|x [|y [|? ?]]]; try discriminate.
    rewrite andb_true_iff, !Z.eqb_eq in HP. destruct HP as [-> ->]. reflexivity.
Qed.

Lemma dquote_one c fp rest : isbyte c ->
  dquote (print_escaped_char c fp ++ rest) = option_map (app (one fp c)) (dquote rest).
Proof.
  intros H. destruct (print_cases c fp H) as [(d & E & Hd & [Ho|[Ho Hs]])|[(E & Ho)|[(-> & E & Ho)|(E & Ho & H1 & H2 & H3 & H4)]]];
    rewrite E, Ho.
  - cbn [app dquote]. change (92 =? 92) with true. cbn iota.
    assert (X : dquote (print_escaped_char c fp) = Some [92; d]).
    { unfold one in Ho. destruct (dquote (print_escaped_char c fp)) as [l|]; [congruence|discriminate]. }
    rewrite E in X. cbn [dquote] in X. change (92 =? 92) with true in X. cbn iota in X.
    destruct ((d =? 36) || (d =? 96) || (d =? 34) || (d =? 92)) eqn:E1.
    + cbn [option_map] in X. discriminate.
    + destruct (Z.eqb_spec d 10); [contradiction|]. destruct (dquote rest); reflexivity.
  - cbn [app dquote]. change (92 =? 92) with true. cbn iota.
    destruct Hs as [-> | [-> | ->]]; cbn; destruct (dquote rest); reflexivity.
  - cbn [app dquote]. change (92 =? 92) with true. cbn. destruct (dquote rest); reflexivity.
  - cbn [app dquote]. cbn. destruct (dquote rest); reflexivity.
  - cbn [app dquote].
    destruct (Z.eqb_spec c 92); [contradiction|]. destruct (Z.eqb_spec c 36); [contradiction|].
    destruct (Z.eqb_spec c 96); [contradiction|]. destruct (Z.eqb_spec c 34); [contradiction|].
    cbn [orb]. destruct (dquote rest); reflexivity.
Qed.
Lemma dquote_text fp s : Forall isbyte s -> dquote (literal_text fp s) = Some (flat_map (one fp) s).
Proof.
  induction 1 as [|c s Hc _ IH]; [reflexivity|].
  unfold literal_text in *. cbn [flat_map]. rewrite dquote_one by assumption. rewrite IH. reflexivity.
Qed.

(* char_to_int is right on every byte but NUL, in every configuration *)
Lemma char_to_int_ok sg lookup compact c : 1 <= c < 256 -> char_to_int sg lookup compact (Some c) = c.
Proof.
  intros H.
  assert (HP : (if (1 <=? c) then char_to_int sg lookup compact (Some c) =? c else true) = true).
  { apply (bytes_forall (fun c => if 1 <=? c then char_to_int sg lookup compact (Some c) =? c else true)).
    - destruct sg, lookup, compact; vm_compute; reflexivity.
    - unfold isbyte. lia. }
  destruct (Z.leb_spec 1 c); [|lia]. apply Z.eqb_eq in HP. exact HP.
Qed.

Lemma unpack_one sg lookup compact c rest : isbyte c ->
  unpack_simple sg lookup compact (one false c ++ rest) =
  option_map (cons c) (unpack_simple sg lookup compact rest).
Proof.
  intros H.
  set (P := fun c => match one false c with
     | [a; b] => (a =? 92) && match escape_code b with Some v => v =? c | None => false end
     | [a] => negb (a =? 92) && (a =? c) && (1 <=? c)
     | _ => false end).
  assert (HP : P c = true) by (apply bytes_forall; [vm_compute; reflexivity|assumption]).
  unfold P in HP. destruct (one false c) as [|a [|b [|? ?]]]; try discriminate.
  - rewrite !andb_true_iff, negb_true_iff, Z.eqb_eq, Z.leb_le in HP. destruct HP as [[H1 ->] H2].
    cbn [app unpack_simple]. rewrite H1.
    rewrite char_to_int_ok by (unfold isbyte in H; lia). reflexivity.
  - rewrite andb_true_iff, Z.eqb_eq in HP. destruct HP as [-> HP].
    cbn [app unpack_simple]. change (92 =? 92) with true. cbn iota.
    destruct (escape_code b) as [v|]; [|discriminate]. apply Z.eqb_eq in HP. subst v. reflexivity.
Qed.
Lemma unpack_text sg lookup compact s : Forall isbyte s ->
  unpack_simple sg lookup compact (flat_map (one false) s) = Some s.
Proof.
  induction 1 as [|c s Hc _ IH]; [reflexivity|]. cbn [flat_map]. rewrite unpack_one by assumption. rewrite IH. reflexivity.
Qed.

(* the buffered unpacker *)
Lemma line_head_spec n small big : let '(s', b', _) := line_head n small big in
  s' ++ b' = small ++ big /\ ((0 < n)%nat -> small ++ big <> [] -> s' <> []).
Proof.
  unfold line_head. destruct small as [|c small]; [|split; [reflexivity|congruence]].
  destruct (Nat.leb_spec n (length big)).
  - split; [apply firstn_skipn|]. intros Hn Hb. destruct big as [|x big]; [contradiction|].
    destruct n; [lia|]. cbn. congruence.
  - split; [cbn; apply app_nil_r|]. intros _ Hb. exact Hb.
Qed.
Lemma next_sub_spec b16 b256 str :
  let '(b16', b256', str') := next_sub_buffer (b16, b256, str) in
  b16' ++ b256' ++ str' = b16 ++ b256 ++ str /\ (b16 ++ b256 ++ str <> [] -> b16' <> []).
Proof.
  unfold next_sub_buffer. pose proof (line_head_spec 256 b256 str) as H1.
  destruct (line_head 256 b256 str) as [[b2 s2] f]. destruct H1 as [H1 H1'].
  pose proof (line_head_spec 16 b16 b2) as H2. destruct (line_head 16 b16 b2) as [[b1 b3] g].
  destruct H2 as [H2 H2']. split.
  - rewrite app_assoc, H2, <- app_assoc, H1. reflexivity.
  - intros H. apply H2'; [lia|]. intros E. apply app_eq_nil in E. destruct E as [-> ->].
    apply H. cbn [app] in *. destruct (b256 ++ str) eqn:E2; [reflexivity|]. exfalso. apply H1'; [lia|congruence|reflexivity].
Qed.

Definition content (st : list Z * list Z * list Z) : list Z := let '(a, b, c) := st in a ++ b ++ c.
Lemma unpack_long_ok sg lookup compact fuel : forall (inner : bool) st,
  (if inner then (3 * length (content st) + match fst (fst st) with [] => 2 | _ => 0 end <= fuel)%nat
   else fst (fst st) = [] /\ (3 * length (content st) + 1 <= fuel)%nat) ->
  unpack_long sg lookup compact fuel inner st = unpack_simple sg lookup compact (content st).
Proof.
  induction fuel as [|fuel IH]; intros inner [[b16 b256] str] H.
  - exfalso. destruct inner; cbn [fst] in H; [|lia]. destruct b16; [lia|]. cbn [content app length] in H. lia.
  - cbn [unpack_long]. destruct inner; cbn [fst] in H.
    + destruct b16 as [|c t].
      * rewrite IH; [reflexivity|]. cbn [fst]. split; [reflexivity|]. cbn [content app length] in *. lia.
      * cbn [content app unpack_simple]. cbn [content app length] in H.
        destruct (Z.eqb_spec c 92) as [->|Hc].
        -- destruct t as [|d t].
           ++ pose proof (next_sub_spec [] b256 str) as HN.
              destruct (next_sub_buffer ([], b256, str)) as [[b16' b256'] str']. destruct HN as [HN HN'].
              cbn [app] in *. rewrite <- HN. destruct b16' as [|d t'].
              ** destruct (b256 ++ str) as [|x r] eqn:E; [|exfalso; apply HN'; congruence].
                 cbn [app] in *. rewrite HN. reflexivity.
              ** cbn [app]. destruct (escape_code d); [|reflexivity]. f_equal.
                 rewrite IH; [reflexivity|]. cbn [fst content].
                 assert (L : length (b256 ++ str) = S (length (t' ++ b256' ++ str'))) by (rewrite <- HN; reflexivity).
                 destruct t'; lia.
           ++ cbn [app]. destruct (escape_code d); [|reflexivity]. f_equal.
              rewrite IH; [reflexivity|]. cbn [fst content]. cbn [app length] in H. destruct t; lia.
        -- f_equal. rewrite IH; [reflexivity|]. cbn [fst content]. destruct t; lia.
    + destruct H as [-> H]. cbn [content app] in *.
      destruct (list_eq_dec Z.eq_dec (b256 ++ str) []) as [E|E].
      * apply app_eq_nil in E. destruct E as [-> ->]. reflexivity.
      * replace (match str with [] => match b256 with [] => Some [] | _ :: _ => unpack_long sg lookup compact fuel true (next_sub_buffer ([], b256, str)) end
                 | _ :: _ => unpack_long sg lookup compact fuel true (next_sub_buffer ([], b256, str)) end)
          with (unpack_long sg lookup compact fuel true (next_sub_buffer ([], b256, str)))
          by (destruct str, b256; try reflexivity; exfalso; apply E; reflexivity).
        pose proof (next_sub_spec [] b256 str) as HN.
        destruct (next_sub_buffer ([], b256, str)) as [[b16' b256'] str']. destruct HN as [HN HN'].
        cbn [app] in HN, HN'. rewrite IH.
        -- cbn [content]. rewrite HN. reflexivity.
        -- cbn [content fst]. rewrite HN. destruct b16'; [exfalso; apply HN'; auto|]. lia.
Qed.

(* The buffered unpacker used in release builds agrees with the simple one on
   every text (also on malformed ones). *)
Theorem c20_buffered_same : forall sg lookup compact (text : list Z),
  unpack_escaped sg lookup compact true text = unpack_escaped sg lookup compact false text.
Proof.
  intros. unfold unpack_escaped. rewrite unpack_long_ok; [reflexivity|]. cbn [fst content app]. split; [reflexivity|lia].
Qed.

(* A literal written between double quotes, read by the shell, unpacked by the
   runtime, gives back its bytes: any bytes, also NUL; any build options; any
   sign convention of the shell's printf.  [word] is the word the shell passes. *)
Theorem c20_roundtrip : forall sg lookup compact long s, Forall isbyte s ->
  exists word, dquote (literal_text false s) = Some word /\
               unpack_escaped sg lookup compact long word = Some s /\ (length s <= length word)%nat.
Proof.
  intros sg lookup compact long s Hs. exists (flat_map (one false) s).
  split; [apply dquote_text; assumption|].
  assert (E : forall l, unpack_escaped sg lookup compact l (flat_map (one false) s) = Some s).
  { intros []; [rewrite c20_buffered_same|]; apply unpack_text; assumption. }
  split; [apply E|].
  clear E. induction Hs as [|c s Hc _ IH]; [reflexivity|]. cbn [flat_map length]. rewrite app_length.
  assert (1 <= length (one false c))%nat; [|lia].
  destruct (print_cases c false Hc) as [(d & _ & _ & [->|[-> _]])|[(_ & ->)|[(? & _)|(_ & -> & _)]]]; cbn; try lia.
Qed.

(* ... and in memory: defstr without a size allocates (length of word) + 1
   cells; the bytes are in consecutive cells, followed by NUL. *)
Theorem c20_memory : forall tag sg lookup compact long s h, Forall isbyte s ->
  exists word, dquote (literal_text false s) = Some word /\
  exists bytes, unpack_escaped sg lookup compact long word = Some bytes /\
  let (p, h') := rt_defstr tag h bytes (Z.of_nat (length word) + 1) in
  (forall i c, nth_error s i = Some c -> cell h' (p + Z.of_nat i) = Some c) /\
  cell h' (p + Z.of_nat (length s)) = Some 0.
Proof.
  intros tag sg lookup compact long s h Hs.
  destruct (c20_roundtrip sg lookup compact long s Hs) as (word & H1 & H2 & H3).
  exists word. split; [assumption|]. exists s. split; [assumption|].
  rewrite defstr_eq. set (p := fst (rt_malloc tag h (Z.of_nat (length word) + 1))). split.
  - intros i c Hi. assert (i < length s)%nat by (apply nth_error_Some; congruence).
    rewrite zeros_other by lia. apply put_list_at. assumption.
  - apply zeros_at. lia.
Qed.
(* with a declared size (char s[size] = "..."), the rest of the array is zero *)
Theorem c20_sized : forall tag s h size, Forall isbyte s -> Z.of_nat (length s) < size ->
  let (p, h') := rt_defstr tag h s size in
  forall i, 0 <= i < size -> cell h' (p + i) = Some (match nth_error s (Z.to_nat i) with Some v => v | None => 0 end).
Proof. intros tag s h size _ Hl. exact (proj2 (c22_initialised tag h) s size Hl). Qed.

Example c20_case : exists word, dquote (literal_text false [36; 34; 96; 92; 10; 0; 200; 65]) = Some word /\
  unpack_escaped true true false true word = Some [36; 34; 96; 92; 10; 0; 200; 65].
Proof. eexists. vm_compute. split; reflexivity. Qed.

(* ---- C25 ---- *)
(* putchar of a printable character constant is compiled to  printf "<text>" *)
Theorem c25_constant : forall c text, putchar_literal c = Some text ->
  exists word, dquote text = Some word /\ sh_fmt word = Some [c].
Proof.
  intros c text. unfold putchar_literal.
  destruct ((32 <=? c) && (c <=? 126)) eqn:E; [|discriminate]. intros [= <-].
  apply andb_true_iff in E. destruct E as [E1 E2]. apply Z.leb_le in E1, E2.
  set (P := fun c => if (32 <=? c) && (c <=? 126) then
     match dquote (print_escaped_char c true) with
     | Some w => match sh_fmt w with Some [x] => x =? c | _ => false end | None => false end else true).
  assert (HP : P c = true) by (apply bytes_forall; [vm_compute; reflexivity|unfold isbyte; lia]).
  unfold P in HP. rewrite (proj2 (Z.leb_le 32 c) E1), (proj2 (Z.leb_le c 126) E2) in HP. cbn [andb] in HP.
  destruct (dquote (print_escaped_char c true)) as [w|]; [|discriminate]. exists w. split; [reflexivity|].
  destruct (sh_fmt w) as [[|x [|? ?]]|]; try discriminate. apply Z.eqb_eq in HP. subst x. reflexivity.
Qed.
(* every other putchar, inline or in the runtime, prints an octal escape *)
Theorem c25_octal : forall c, isbyte c -> sh_fmt (octal_word c) = Some [c].
Proof.
  intros c H.
  assert (HP : match sh_fmt (octal_word c) with Some [x] => x =? c | _ => false end = true).
  { apply (bytes_forall (fun c => match sh_fmt (octal_word c) with Some [x] => x =? c | _ => false end));
      [vm_compute; reflexivity|assumption]. }
  destruct (sh_fmt (octal_word c)) as [[|x [|? ?]]|]; try discriminate. apply Z.eqb_eq in HP. subst x. reflexivity.
Qed.

(* a whole constant string printed by one printf: puts("..."), putstr("...") *)
Lemma fmt_one c rest : isbyte c -> c <> 0 ->
  sh_fmt (one true c ++ rest) = option_map (cons c) (sh_fmt rest).
Proof.
  intros H H0.
  set (P := fun c => if c =? 0 then true else match one true c with
     | [a] => (a =? c) && negb (c =? 37) && negb (c =? 92)
     | [a; b] => ((a =? 37) && (b =? 37) && (c =? 37)) ||
                 ((a =? 92) && negb (isoct b) &&
                  match sh_fmt [a; b] with Some [x] => x =? c | _ => false end)
     | _ => false end).
  assert (HP : P c = true) by (apply bytes_forall; [vm_compute; reflexivity|assumption]).
  unfold P in HP. destruct (Z.eqb_spec c 0); [contradiction|].
  destruct (one true c) as [|a [|b [|? ?]]]; try discriminate.
  - rewrite !andb_true_iff, !negb_true_iff, Z.eqb_eq in HP. destruct HP as [[-> H1] H2].
    cbn [app sh_fmt]. rewrite H1, H2. reflexivity.
  - apply orb_true_iff in HP. destruct HP as [HP|HP].
    + rewrite !andb_true_iff, !Z.eqb_eq in HP. destruct HP as [[-> ->] ->].
      cbn [app sh_fmt]. cbn. reflexivity.
    + rewrite !andb_true_iff, negb_true_iff, Z.eqb_eq in HP. destruct HP as [[-> H1] H2].
      cbn [app sh_fmt] in *. change (92 =? 37) with false in *. change (92 =? 92) with true in *. cbn iota in *.
      rewrite H1 in *. cbn [option_map] in H2.
      repeat match goal with |- context [if b =? ?k then _ else _] => destruct (Z.eqb_spec b k);
         [apply Z.eqb_eq in H2; subst c; destruct (sh_fmt rest); reflexivity|] end.
      discriminate.
Qed.
Theorem c25_string : forall s, Forall (fun c => isbyte c /\ c <> 0) s ->
  exists word, dquote (literal_text true s) = Some word /\ sh_fmt word = Some s.
Proof.
  intros s Hs. exists (flat_map (one true) s). split.
  - apply dquote_text. eapply Forall_impl; [|exact Hs]. intros ? [? ?]; assumption.
  - induction Hs as [|c s [Hc H0] _ IH]; [reflexivity|]. cbn [flat_map].
    rewrite fmt_one by assumption. rewrite IH. reflexivity.
Qed.

(* Outside 0..255 C's putchar converts to unsigned char; the shell code does not. *)
Theorem c25_negative_refuted : sh_fmt (octal_word (-1)) <> Some [255].
Proof. vm_compute. discriminate. Qed.

Example c25_strings : exists word, dquote (literal_text true [45; 37; 36; 92; 39; 10]) = Some word /\
  sh_fmt word = Some [45; 37; 36; 92; 39; 10].
Proof. eexists. vm_compute. split; reflexivity. Qed.
