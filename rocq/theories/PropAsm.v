(** * C30, C31, C37: immediates, labels, executable files *)
From Coq Require Import ZArith List Lia Bool.
From Verif Require Import Base Asm AsmProof Elf.
Import ListNotations.
Open Scope Z_scope.
Local Arguments Z.mul : simpl never.

(** ** C30 *)
(** The number stored little-endian in [k] cells at [p]. *)
Fixpoint num_at (c : Z -> Z) (p : Z) (k : nat) : Z :=
  match k with O => 0 | S k => c p + 256 * num_at c (p + 1) k end.

Lemma le32_num n p c : at_ c p (le32 n) -> num_at c p 4 = n mod 2 ^ 32.
Proof.
  intros (H0 & H1 & H2 & H3 & _). cbn [num_at]. rewrite H0, H1, H2, H3.
  change (2 ^ 32) with 4294967296. Z.div_mod_to_equations. lia.
Qed.
Lemma le32_bytes c p n : at_ c p (le32 n) -> forall i, 0 <= i < 4 -> 0 <= c (p + i) < 256.
Proof.
  intros H i Hi. rewrite (at_nth _ _ _ H) by (rewrite zlen_le32; lia).
  assert (i = 0 \/ i = 1 \/ i = 2 \/ i = 3) as [E|[E|[E|E]]] by lia; subst i;
    match goal with |- context [nth ?k _ _] => let k' := eval compute in k in change k with k' end;
    cbn [nth le32]; apply Z.mod_pos_bound; lia.
Qed.

(** Emitting a 32-bit immediate writes four bytes, that are its little-endian representation, and nothing else. *)
Theorem c30_immediate32 : forall n s, ca s + 4 <= MAX_CODE_SIZE ->
  exists s', emit_i32_le n s = Some s' /\ ca s' = ca s + 4 /\
    num_at (code s') (ca s) 4 = n mod 2 ^ 32 /\
    (forall i, 0 <= i < 4 -> 0 <= code s' (ca s + i) < 256) /\
    (forall x, x < ca s \/ ca s + 4 <= x -> code s' x = code s x).
Proof.
  intros n s H. rewrite emit_i32_ok by exact H. eexists. split; [reflexivity|].
  assert (Ha : at_ (code (app_code s (le32 n))) (ca s) (le32 n)) by apply wr_at.
  split; [reflexivity|]. split; [now apply le32_num|]. split; [now apply le32_bytes with (n := n)|].
  intros x Hx. apply wr_out. rewrite zlen_le32. exact Hx.
Qed.

Lemma num_at_8 c p : num_at c p 8 = num_at c p 4 + 2 ^ 32 * num_at c (p + 4) 4.
Proof. cbn [num_at]. replace (p + 1 + 1 + 1 + 1) with (p + 4) by lia. change (2 ^ 32) with 4294967296. ring. Qed.

(** A 64-bit immediate is the sign extension of the int. *)
Theorem c30_immediate64 : forall n s, int_range n -> ca s + 8 <= MAX_CODE_SIZE ->
  exists s', emit_i64_le n s = Some s' /\ ca s' = ca s + 8 /\
    num_at (code s') (ca s) 8 = n mod 2 ^ 64 /\
    (forall x, x < ca s \/ ca s + 8 <= x -> code s' x = code s x).
Proof.
  intros n s Hr H. unfold emit_i64_le. rewrite emit_i32_ok by lia. cbn [bind].
  rewrite emit_i32_ok by (rewrite ca_app, zlen_le32; lia). rewrite app_code_app.
  eexists. split; [reflexivity|].
  assert (Ha : at_ (code (app_code s (le32 n ++ le32 (Z.shiftr n 31)))) (ca s) (le32 n ++ le32 (Z.shiftr n 31))) by apply wr_at.
  split; [reflexivity|]. split.
  - apply at_app in Ha. destruct Ha as [A1 A2]. rewrite zlen_le32 in A2.
    rewrite num_at_8, (le32_num _ _ _ A1), (le32_num _ _ _ A2).
    rewrite Z.shiftr_div_pow2 by lia. unfold int_range in Hr.
    change (2 ^ 31) with 2147483648. change (2 ^ 32) with 4294967296. change (2 ^ 64) with 18446744073709551616.
    assert (n / 2147483648 = if n <? 0 then -1 else 0) as ->.
    { destruct (Z.ltb_spec n 0); [symmetry; apply Z.div_unique with (r := n + 2147483648); lia|apply Z.div_small; lia]. }
    destruct (Z.ltb_spec n 0).
    + change ((-1) mod 4294967296) with 4294967295.
      rewrite <- (Z.mod_add n 1 4294967296), <- (Z.mod_add n 1 18446744073709551616) by lia.
      rewrite !Z.mod_small by lia. lia.
    + change (0 mod 4294967296) with 0. rewrite !Z.mod_small by lia. lia.
  - intros x Hx. apply wr_out. rewrite zlen_app, !zlen_le32. lia.
Qed.

(** A literal too large for an int, kept as two words of the compiler's heap, is emitted exactly; a small one,
    kept negated, too. *)
Theorem c30_large_immediate : forall hp imm s, ca s + 8 <= MAX_CODE_SIZE -> -2147483648 < imm < 2147483648 ->
  exists s', emit_i64_le_large_imm hp imm s = Some s' /\ ca s' = ca s + 8 /\
    num_at (code s') (ca s) 8 =
      if 0 <? imm then hp imm mod 2 ^ 32 + 2 ^ 32 * (hp (imm + 1) mod 2 ^ 32) else - imm.
Proof.
  intros hp imm s H Hr. unfold emit_i64_le_large_imm. destruct (Z.leb_spec imm 0).
  - destruct (Z.ltb_spec 0 imm); [lia|].
    destruct (c30_immediate64 (- imm) s) as (s' & E & G1 & G2 & _); [unfold int_range in *; lia|exact H|].
    exists s'. repeat split; auto. rewrite G2. apply Z.mod_small. change (2 ^ 64) with 18446744073709551616. lia.
  - destruct (Z.ltb_spec 0 imm); [|lia]. rewrite emit_i32_ok by lia. cbn [bind].
    rewrite emit_i32_ok by (rewrite ca_app, zlen_le32; lia). rewrite app_code_app.
    eexists. split; [reflexivity|]. split; [reflexivity|].
    match goal with |- num_at (code (app_code s ?l)) _ _ = _ => assert (Ha : at_ (code (app_code s l)) (ca s) l) by apply wr_at end.
    apply at_app in Ha. destruct Ha as [A1 A2]. rewrite zlen_le32 in A2.
    rewrite num_at_8, (le32_num _ _ _ A1), (le32_num _ _ _ A2). reflexivity.
Qed.

Example c30_example : exists s', emit_i32_le (-2) as0 = Some s' /\ map (code s') [0; 1; 2; 3] = [254; 255; 255; 255].
Proof. eexists. split; reflexivity. Qed.

(** ** C31 *)
(** Whatever sequence of bytes, label uses, label definitions, gotos and frame-size changes the code generator
    goes through, the buffer ends up holding exactly what the two-pass assembler [assemble] specifies. *)
Theorem c31_labels_resolved : forall W ops, labels_ok W ops -> ops_size W ops <= MAX_CODE_SIZE ->
  exists s, do_ops W as0 ops = Some s /\ ca s = Z.of_nat (length (assemble W ops)) /\
    forall i, 0 <= i < ca s -> code s i = nth (Z.to_nat i) (assemble W ops) 0.
Proof.
  intros W ops H1 H2. destruct (backpatch_correct W ops H1 H2) as (s & E & Hc & Ha).
  exists s. split; [exact E|]. split; [exact Hc|]. intros i Hi.
  rewrite <- (at_nth _ _ _ Ha i) by (rewrite <- Hc; lia). f_equal.
Qed.

(** In particular each use of a label holds the distance from the next instruction to the label. *)
Lemma assemble_at W ops s pre l post a :
  ops = pre ++ OUse l :: post -> at_ (code s) 0 (assemble W ops) -> label_addr W 0 ops l = Some a ->
  (forall x, In (OUse x) ops -> exists b, label_addr W 0 ops x = Some b) ->
  (forall x, In (OGoto x) ops -> exists b, goto_addr W 0 0 ops x = Some b) ->
  at_ (code s) (ops_size W pre) (le32 (a - (ops_size W pre + 4))).
Proof.
  intros Eo Ha Hl Hu Hg. unfold assemble in Ha.
  set (lab := label_addr W 0 ops) in *. set (glab := goto_addr W 0 0 ops) in *.
  assert (Hsz : forall o, In o ops -> forall p f, zlen (op_bytes W lab glab p f o) = op_size W o).
  { intros o Hin p f. destruct o; cbn [op_bytes op_size]; try reflexivity.
    - destruct (Hu _ Hin) as [b ->]. reflexivity.
    - destruct (Hg _ Hin) as [[b g] ->]. rewrite goto_bytes_split, zlen_app, zlen_grow, zlen_jmp. lia. }
  clearbody lab glab. rewrite Eo in Ha. assert (Hin : forall o, In o pre -> In o ops) by (intros; rewrite Eo; apply in_or_app; auto).
  clear Eo Hu Hg. replace (ops_size W pre) with (0 + ops_size W pre) at 1 by lia.
  replace (ops_size W pre) with (0 + ops_size W pre) at 2 by lia.
  revert Ha. generalize 0 at 1 2 4 5 as pos. generalize 0 as fs. induction pre as [|o r IH]; intros fs pos Ha.
  - cbn [app second_pass ops_size] in *. apply at_app in Ha. destruct Ha as [Ha _]. cbn [op_bytes] in Ha.
    rewrite Hl in Ha. now rewrite Z.add_0_r.
  - cbn [app second_pass ops_size] in *. apply at_app in Ha. destruct Ha as [_ Ha]. rewrite Hsz in Ha by (apply Hin; now left).
    apply IH in Ha; [|intros; apply Hin; now right]. now rewrite Z.add_assoc.
Qed.

Theorem c31_use_lands : forall W ops pre l post, labels_ok W ops -> ops_size W ops <= MAX_CODE_SIZE ->
  ops = pre ++ OUse l :: post ->
  exists s a, do_ops W as0 ops = Some s /\ label_addr W 0 ops l = Some a /\
    (* reading the displacement as a signed 32-bit number and adding it to the address of the next byte *)
    ops_size W pre + 4 + w32 (num_at (code s) (ops_size W pre) 4) = a.
Proof.
  intros W ops pre l post Hok Hsz Eo. destruct (backpatch_correct W ops Hok Hsz) as (s & E & Hc & Ha).
  pose proof Hok as Hok0. destruct Hok as (Hu & Hg & Hn1 & Hn2 & Hp1 & Hp2).
  assert (Hin : In (OUse l) ops) by (rewrite Eo; apply in_elt).
  destruct (label_addr_def W ops 0 l (Hu _ Hin)) as [a Hla].
  exists s, a. split; [exact E|]. split; [exact Hla|].
  assert (A : at_ (code s) (ops_size W pre) (le32 (a - (ops_size W pre + 4)))).
  { apply (assemble_at W ops s pre l post a Eo Ha Hla).
    - intros x Hx. apply label_addr_def. now apply Hu.
    - intros x Hx. destruct (goto_addr_def W ops 0 0 x (Hg _ Hx)) as (b & f & Hb). eauto. }
  rewrite (le32_num _ _ _ A). change (2 ^ 32) with 4294967296.
  change (_ mod 4294967296) with (u32 (a - (ops_size W pre + 4))). rewrite w32_u32. rewrite w32_id; [lia|].
  (* both addresses lie in the buffer *)
  assert (Ha2 : 0 <= a <= ops_size W ops).
  { destruct (label_addr_in W ops 0 0 l a Hla) as [f Hf]. clear - Hf.
    assert (G : forall pos fs, In (a, f, ODef l) (place W pos fs ops) -> pos <= a <= pos + ops_size W ops).
    { clear. induction ops as [|o r IH]; intros pos fs H; [destruct H|]. cbn [place ops_size] in *.
      pose proof (op_size_nonneg W o). pose proof (ops_size_nonneg W r). destruct H as [E|H].
      - injection E as -> _ _. lia.
      - apply IH in H. lia. }
    apply G in Hf. lia. }
  assert (0 <= ops_size W pre /\ ops_size W pre + 4 <= ops_size W ops).
  { rewrite Eo. clear. pose proof (ops_size_nonneg W pre). split; [lia|].
    assert (forall l1 l2, ops_size W (l1 ++ l2) = ops_size W l1 + ops_size W l2) as ->.
    { induction l1; intros; cbn [app ops_size]; [lia|]. rewrite IHl1. lia. }
    cbn [ops_size op_size]. pose proof (ops_size_nonneg W post). lia. }
  unfold int_range, MAX_CODE_SIZE in *. lia.
Qed.

(** A label defined at the very start of the buffer is lost: it looks undefined, and later uses of it are
    never patched. *)
Theorem c31_label_at_zero_refuted : forall W, exists s,
  do_ops W as0 [ODef 1; OByte 144; OUse 1] = Some s /\ label_addr W 0 [ODef 1; OByte 144; OUse 1] 1 = Some 0 /\
  num_at (code s) 1 4 = 0 /\ 1 + 4 + w32 0 <> 0.
Proof. intros. eexists. split; [reflexivity|]. split; [reflexivity|]. split; [reflexivity|discriminate]. Qed.

(** Non-vacuity: a loop with a forward and a backward use and a forward goto. *)
Example c31_example :
  let ops := [OByte 233; OUse 2; ODef 1; OByte 144; OGoto 5; OByte 233; OUse 1; ODef 2; OFrame 3; ODefGoto 5; OByte 195] in
  labels_ok 4 ops /\ assemble 4 ops = [233; 17; 0; 0; 0; 144; 129; 196; 244; 255; 255; 255; 233; 5; 0; 0; 0; 233; 239; 255; 255; 255; 195].
Proof.
  cbv zeta. split; [|reflexivity]. unfold labels_ok.
  split; [intros x Hx; cbn in Hx |- *; intuition congruence|].
  split; [intros x Hx; cbn in Hx |- *; intuition congruence|].
  split; [cbn; constructor; [cbn; intuition discriminate|constructor; [cbn; tauto|constructor]]|].
  split; [cbn; constructor; [cbn; tauto|constructor]|].
  split.
  - intros x a. cbn [label_addr op_size goto_size]. change (4 =? 8) with false. cbn iota.
    destruct (x =? 1); [injection 1 as <-; reflexivity|]. destruct (x =? 2); [injection 1 as <-; reflexivity|discriminate].
  - intros x a f. cbn [goto_addr op_size goto_size]. change (4 =? 8) with false. cbn iota.
    destruct (x =? 5); [injection 1 as <- _; reflexivity|discriminate].
Qed.

(** ** C37 *)
Definition is_byte (b : Z) : Prop := 0 <= b < 256.

Lemma write_code_id code : Forall is_byte code -> write_code code = code.
Proof.
  induction 1 as [|b r Hb _ IH]; [reflexivity|]. unfold write_code in *. cbn [flat_map write_i8 app]. rewrite IH, land255.
  rewrite Z.mod_small by exact Hb. reflexivity.
Qed.
Lemma write_i32_bytes n : write_i32_le n = le32 n.
Proof.
  unfold write_i32_le, write_4_i8, write_2_i8, write_i8. cbn [app]. rewrite !land255, !Z.shiftr_div_pow2 by lia. reflexivity.
Qed.
Lemma le32_read n : 0 <= n < 4294967296 ->
  n mod 256 + 256 * ((n / 256) mod 256) + 65536 * ((n / 65536) mod 256 + 256 * ((n / 16777216) mod 256)) = n.
Proof. intros. Z.div_mod_to_equations. lia. Qed.

(** The headers describe the file: for every generated code, the file is an ELF executable of the target whose
    single segment maps the whole file and whose entry point is the first byte of the code. *)
Theorem c37_elf : forall w64 code, Forall is_byte code -> Z.of_nat (length code) <= MAX_CODE_SIZE ->
  loads w64 ((if w64 then read_elf64 else read_elf32) (elf_file w64 code)) (elf_file w64 code) code.
Proof.
  intros w64 code Hb Hlen. unfold elf_file. rewrite (write_code_id _ Hb). set (n := Z.of_nat (length code)) in *.
  assert (0 <= n) by lia.
  destruct w64; unfold p_header64, p_header32; rewrite !write_i32_bytes.
  - set (f := (e_header64 ++ _) ++ code).
    assert (Hl : Z.of_nat (length f) = 120 + n).
    { unfold f. rewrite app_length. fold n. unfold n. rewrite Nat2Z.inj_add. reflexivity. }
    unfold loads. rewrite Hl.
    assert (Hrd : forall k, pfilesz (read_elf64 f) = k <-> 120 + n = k).
    { intros k. change (pfilesz (read_elf64 f)) with
        ((120 + n) mod 256 + 256 * (((120 + n) / 256) mod 256) +
          65536 * (((120 + n) / 65536) mod 256 + 256 * (((120 + n) / 16777216) mod 256)) + 4294967296 * 0).
      rewrite le32_read by (unfold MAX_CODE_SIZE in *; lia). rewrite Z.add_0_r. reflexivity. }
    repeat match goal with |- _ /\ _ => split end; try reflexivity.
    apply Hrd. reflexivity.
  - set (f := (e_header32 ++ _) ++ code).
    assert (Hl : Z.of_nat (length f) = 84 + n).
    { unfold f. rewrite app_length. fold n. unfold n. rewrite Nat2Z.inj_add. reflexivity. }
    unfold loads. rewrite Hl.
    assert (Hrd : forall k, pfilesz (read_elf32 f) = k <-> 84 + n = k).
    { intros k. change (pfilesz (read_elf32 f)) with
        ((84 + n) mod 256 + 256 * (((84 + n) / 256) mod 256) +
          65536 * (((84 + n) / 65536) mod 256 + 256 * (((84 + n) / 16777216) mod 256))).
      rewrite le32_read by (unfold MAX_CODE_SIZE in *; lia). reflexivity. }
    repeat match goal with |- _ /\ _ => split end; try reflexivity.
    apply Hrd. reflexivity.
Qed.

(** The remaining fields: version 1 in both places, no ABI extension, no flags, no section headers, and an alignment that is a
    positive power of two. *)
Theorem c37_elf_rest : forall w64 code,
  let f := elf_file w64 code in
  byte_at f 6 = 1 /\ firstn 9 (skipn 7 f) = repeat 0 9 /\ u32f f 20 = 1 /\
  (if w64 then u64f f 40 else u32f f 32) = 0 /\ u32f f (if w64 then 48 else 36) = 0 /\
  u16 f (if w64 then 58 else 46) = 0 /\ u16 f (if w64 then 60 else 48) = 0 /\ u16 f (if w64 then 62 else 50) = 0 /\
  palign ((if w64 then read_elf64 else read_elf32) f) = (if w64 then 2 ^ 21 else 2 ^ 12).
Proof. intros w64 code f. unfold f, elf_file. destruct w64; repeat split; reflexivity. Qed.

(** Together with C31: the file contains the assembled program, ready to run from its first byte. *)
Lemma assemble_bytes W ops : Forall is_byte (assemble W ops).
Proof.
  assert (L : forall n, Forall is_byte (le32 n)).
  { intros n. repeat (apply Forall_cons; [apply Z.mod_pos_bound; lia|]). apply Forall_nil. }
  unfold assemble. generalize (label_addr W 0 ops), (goto_addr W 0 0 ops). intros lab glab.
  generalize 0 at 1 as pos. generalize 0 as fs. induction ops as [|o r IH]; intros fs pos; cbn [second_pass]; [apply Forall_nil|].
  apply Forall_app. split; [|apply IH]. destruct o; cbn [op_bytes]; try apply Forall_nil.
  - apply Forall_cons; [apply Z.mod_pos_bound; lia|apply Forall_nil].
  - destruct (lab l); [apply L|apply Forall_nil].
  - destruct (glab l) as [[a g]|]; [|apply Forall_nil]. unfold goto_bytes.
    apply Forall_app. split; [destruct (W =? 8); [apply Forall_cons; [split; lia|]|]; apply Forall_nil|].
    apply Forall_app. split; [apply Forall_cons; [split; lia|apply Forall_cons; [split; lia|apply Forall_nil]]|].
    apply Forall_app. split; [apply L|]. apply Forall_app. split; [apply Forall_cons; [split; lia|apply Forall_nil]|apply L].
Qed.
Theorem c37_program_file : forall (w64 : bool) ops, let W := if w64 then 8 else 4 in
  labels_ok W ops -> ops_size W ops <= MAX_CODE_SIZE ->
  exists s, do_ops W as0 ops = Some s /\
    let cells := map (fun i => code s (Z.of_nat i)) (seq 0 (Z.to_nat (ca s))) in
    loads w64 ((if w64 then read_elf64 else read_elf32) (elf_file w64 cells)) (elf_file w64 cells) (assemble W ops).
Proof.
  intros w64 ops W H1 H2. destruct (backpatch_correct W ops H1 H2) as (s & E & Hc & Ha). exists s. split; [exact E|].
  cbv zeta.
  assert (Ec : map (fun i => code s (Z.of_nat i)) (seq 0 (Z.to_nat (ca s))) = assemble W ops).
  { apply nth_ext with (d := 0) (d' := 0).
    - rewrite map_length, seq_length. unfold zlen in Hc. lia.
    - intros i Hi. rewrite map_length, seq_length in Hi.
      rewrite (nth_indep _ 0 (code s (Z.of_nat 0))) by (rewrite map_length, seq_length; exact Hi).
      rewrite (map_nth (fun i => code s (Z.of_nat i))). rewrite seq_nth by exact Hi.
      cbn [Nat.add]. replace (Z.of_nat i) with (0 + Z.of_nat i) by lia. rewrite (at_nth _ _ _ Ha) by lia. f_equal. lia. }
  rewrite Ec. apply c37_elf; [apply assemble_bytes|].
  assert (Z.of_nat (length (assemble W ops)) = ops_size W ops) as ->; [|exact H2].
  destruct H1 as (Hu & Hg & _).
  assert (G : forall l pos fs, (forall o, In o l -> In o ops) ->
    zlen (second_pass W (label_addr W 0 ops) (goto_addr W 0 0 ops) pos fs l) = ops_size W l).
  { induction l as [|o r IH]; intros pos fs Hin; cbn [second_pass ops_size]; [reflexivity|].
    rewrite zlen_app, IH by (intros; apply Hin; now right). f_equal.
    destruct o as [b|x|x|x|x|x]; cbn [op_bytes op_size]; try reflexivity.
    - assert (Hx : In (OUse x) ops) by (apply Hin; now left).
      destruct (label_addr_def W ops 0 x (Hu x Hx)) as [b Hb]. rewrite Hb. reflexivity.
    - assert (Hx : In (OGoto x) ops) by (apply Hin; now left).
      destruct (goto_addr_def W ops 0 0 x (Hg x Hx)) as (b & f & Hb). rewrite Hb.
      rewrite goto_bytes_split, zlen_app, zlen_grow, zlen_jmp. lia. }
  apply (G ops 0 0). auto.
Qed.

(** The macOS variant: the entry point is right, but the text segment is declared as long as the code although
    it starts with the 360 bytes of headers, so the last 360 bytes of the code are outside the segment. *)
Theorem c37_macho_refuted : forall code, Forall is_byte code -> Z.of_nat (length code) <= MAX_CODE_SIZE ->
  let f := macho_file code in
  (* file offset and file size of the __TEXT segment command at 104, initial RIP at 32 + 72 + 72 + 144 *)
  u64f f 104 = 25 + 2 ^ 32 * 72 + 2 ^ 64 * 0 /\
  u64f f (104 + 24) = 2 ^ 32 /\ u64f f (104 + 40) = 0 /\ u64f f (104 + 48) = Z.of_nat (length code) /\
  u64f f 320 = 2 ^ 32 + 360 /\ firstn (length code) (skipn 360 f) = code.
Proof.
  intros code Hb Hlen f. unfold f, macho_file. rewrite (write_code_id _ Hb). set (n := Z.of_nat (length code)) in *.
  unfold mach_text. rewrite !write_i32_bytes.
  assert (0 <= n) by lia.
  split; [reflexivity|]. split; [reflexivity|]. split; [reflexivity|]. split.
  - match goal with |- u64f ?g _ = _ => change (u64f g (104 + 48)) with
        (n mod 256 + 256 * ((n / 256) mod 256) + 65536 * ((n / 65536) mod 256 + 256 * ((n / 16777216) mod 256)) + 4294967296 * 0) end.
    rewrite le32_read by (unfold MAX_CODE_SIZE in *; lia). lia.
  - split; [reflexivity|].
    match goal with |- firstn _ (skipn 360 ?g) = _ => change (skipn 360 g) with (code ++ repeat 0 (4096 - (56 + length code))) end.
    rewrite firstn_app, Nat.sub_diag, firstn_O, app_nil_r. apply firstn_all.
Qed.
