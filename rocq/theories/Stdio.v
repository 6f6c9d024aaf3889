(** * portable_libc/src/stdio.c: streams (fputc, fwrite, fputs, puts, vfprintf to a file, fread, fseek)

    A file descriptor other than -1 is an open file; the system call [write(fd, p, 1)] appends the byte to it (a
    failing [write] is not modelled).  Memory holds signed [char]s, as in Libc.v.  [USE_STRUCT] is not defined: a FILE is
    an int, and [stdin], [stdout], [stderr] are the addresses of the
    first three [_standard_files].  A stream is represented by the descriptor that [_get_fd] (stdio.c:16-30) finds for it;
    -1 is the string buffer of C43. *)
From Coq Require Import ZArith List Lia Bool.
From Verif Require Import Base Libc LibcNum.
Import ListNotations.
Open Scope Z_scope.

(** ** Model *)
(** What has been written to each descriptor, the memory, and [_string_output_len]. *)
Record io := IO { wr : Z -> list Z; im : mem; slen : Z }.
(** stdio.c:70-82 [fputc]; [str] and [size] are the string buffer set by [vsnprintf]. *)
Definition fputc (str size fd c : Z) (s : io) : io * Z :=
  if fd =? -1 then let '(m, l) := sfputc str size (im s, slen s) c in (IO (wr s) m l, c)
  else (IO (upd (wr s) fd (wr s fd ++ [uchar c])) (im s) (slen s), c).
(** stdio.c:84-93 [fwrite]: [n = size * nmemb] is computed in [size_t] (64 bits unsigned). *)
Fixpoint fwrite_loop (str size fd p : Z) (n : nat) (s : io) : io :=
  match n with O => s | S n => fwrite_loop str size fd (p + 1) n (fst (fputc str size fd (im s p) s)) end.
Definition SIZE_MOD := 18446744073709551616.
Definition fwrite (str bsize fd p size nmemb : Z) (s : io) : io * Z :=
  (fwrite_loop str bsize fd p (Z.to_nat ((size * nmemb) mod SIZE_MOD)) s, nmemb).
(** stdio.c:95-103 [_fputstr]; [None]: the string has not ended within the fuel. *)
Fixpoint fputstr (fuel : nat) (str size fd p : Z) (s : io) : option (io * Z) :=
  match fuel with
  | O => None
  | S f =>
      if im s p =? 0 then Some (s, 0)
      else match fputstr f str size fd (p + 1) (fst (fputc str size fd (im s p) s)) with
           | Some (s, r) => Some (s, r + 1)
           | None => None
           end
  end.
(** stdio.c:105-109 [fputs], 111-113 [puts]. *)
Definition fputs (fuel : nat) (str size fd p : Z) (s : io) : option (io * Z) :=
  match fputstr fuel str size fd p s with
  | Some (s, _) => Some (fst (fputc str size fd 10 s), 0)
  | None => None
  end.
Definition puts (fuel : nat) (str size p : Z) (s : io) : option (io * Z) := fputs fuel str size 1 p s.
(** stdio.c:158-203, 205-215, 217-227: [fprintf] and [printf] pass the characters of LibcNum's [vfprintf] to [fputc]. *)
Definition fprintf (fuel : nat) (str size fd : Z) (fmt : list Z) (args : list arg) (s : io) : option (io * Z) :=
  match vfprintf fuel fmt args with
  | Some o => Some (fold_left (fun s c => fst (fputc str size fd c s)) o s, Z.of_nat (length o))
  | None => None
  end.
(** The system call [read(fd, data, n)]: -1, or a number [k] of the remaining bytes of the file, stored at [data];
    at most [n], and at least 1 if [n > 0] and there are any. *)
Fixpoint store (m : mem) (p : Z) (l : list Z) : mem := match l with [] => m | b :: l => store (upd m p (to_char b)) (p + 1) l end.
Inductive sysread (m : mem) (data n : Z) (rest : list Z) : mem -> list Z -> Z -> Prop :=
| sysread_ok k : 0 <= k <= n -> k <= Z.of_nat (length rest) -> (0 < n -> rest <> [] -> 0 < k) ->
    sysread m data n rest (store m data (firstn (Z.to_nat k) rest)) (skipn (Z.to_nat k) rest) k
| sysread_err : sysread m data n rest m rest (-1).
(** stdio.c:60-62 [fread]: the result of [read], converted to [size_t], divided by [size]; [None]: division by zero. *)
Definition fread_result (k size : Z) : option Z := if size =? 0 then None else Some ((k mod SIZE_MOD) / size).
Definition fread (m : mem) (data size count : Z) (rest : list Z) (m' : mem) (rest' : list Z) (r : option Z) : Prop :=
  exists k, sysread m data ((size * count) mod SIZE_MOD) rest m' rest' k /\ r = fread_result k size.
(** stdio.c:52-54 [fseek]: the result of [lseek], the new offset (here for SEEK_SET on a file that can seek). *)
Definition lseek_set (offset : Z) : Z := if offset <? 0 then -1 else offset.
Definition fseek_set (offset : Z) : Z := w32 (lseek_set offset).

(** ** Proofs *)
(** The effect of writing the bytes [l] to [fd]. *)
Definition wrote (s s' : io) (fd : Z) (l : list Z) : Prop :=
  wr s' fd = wr s fd ++ l /\ (forall d, d <> fd -> wr s' d = wr s d) /\ im s' = im s /\ slen s' = slen s.
Lemma wrote_nil s fd : wrote s s fd [].
Proof. repeat split. now rewrite app_nil_r. Qed.
Lemma wrote_trans s s1 s2 fd l l' : wrote s s1 fd l -> wrote s1 s2 fd l' -> wrote s s2 fd (l ++ l').
Proof.
  intros (A1 & A2 & A3 & A4) (B1 & B2 & B3 & B4). repeat split; try congruence.
  - rewrite B1, A1, app_assoc. reflexivity.
  - intros d Hd. rewrite B2, A2 by assumption. reflexivity.
Qed.
Lemma fputc_wrote str size fd c s : fd <> -1 -> wrote s (fst (fputc str size fd c s)) fd [uchar c].
Proof.
  intros H. unfold fputc. destruct (Z.eqb_spec fd (-1)); [contradiction|]. cbn [fst]. repeat split; cbn [wr im slen].
  - unfold upd. now rewrite Z.eqb_refl.
  - intros d Hd. unfold upd. destruct (Z.eqb_spec d fd); [contradiction|reflexivity].
Qed.
Lemma fwrite_wrote str size fd : fd <> -1 -> forall n p s,
  wrote s (fwrite_loop str size fd p n s) fd (map (fun i => uchar (im s (p + Z.of_nat i))) (seq 0 n)).
Proof.
  intros H. induction n as [|n IH]; intros p s; [apply wrote_nil|].
  cbn [fwrite_loop seq map]. rewrite Z.add_0_r. pose proof (fputc_wrote str size fd (im s p) s H) as F. change (?x :: ?l) with ([x] ++ l).
  eapply wrote_trans; [exact F|]. destruct F as (_ & _ & Em & _).
  rewrite <- seq_shift, map_map. specialize (IH (p + 1) (fst (fputc str size fd (im s p) s))). rewrite Em in IH.
  erewrite map_ext; [exact IH|]. intros i. cbn beta. do 2 f_equal. lia.
Qed.
Lemma fputstr_wrote str size fd : fd <> -1 -> forall l fuel p s, cstr (im s) p l -> (length l < fuel)%nat ->
  exists s', fputstr fuel str size fd p s = Some (s', Z.of_nat (length l)) /\ wrote s s' fd (map uchar l).
Proof.
  intros H. induction l as [|c l IH]; intros fuel p s Hc Hf; (destruct fuel as [|fuel]; [cbn in Hf; lia|]); cbn [fputstr].
  - rewrite cstr_nil in Hc. rewrite Hc, Z.eqb_refl. eexists. split; [reflexivity|apply wrote_nil].
  - apply cstr_cons in Hc as (E2 & E1 & E3). rewrite E1. rewrite (proj2 (Z.eqb_neq c 0) E2).
    pose proof (fputc_wrote str size fd c s H) as F. destruct F as (F1 & F2 & F3 & F4).
    destruct (IH fuel (p + 1) (fst (fputc str size fd c s))) as (s' & -> & W); [rewrite F3; exact E3|cbn in Hf; lia|].
    eexists. split; [cbn [length]; f_equal; f_equal; lia|]. cbn [map]. change (?x :: ?l) with ([x] ++ l). eapply wrote_trans; [|exact W]. repeat split; assumption.
Qed.
Lemma fold_wrote str size fd : fd <> -1 -> forall o s, wrote s (fold_left (fun s c => fst (fputc str size fd c s)) o s) fd (map uchar o).
Proof.
  intros H. induction o as [|c o IH]; intros s; [apply wrote_nil|]. cbn [fold_left map]. change (?x :: ?l) with ([x] ++ l).
  eapply wrote_trans; [apply fputc_wrote, H|apply IH].
Qed.
Lemma store_at : forall l m p x, store m p l x = if (p <=? x) && (x <? p + Z.of_nat (length l)) then to_char (nth (Z.to_nat (x - p)) l 0) else m x.
Proof.
  induction l as [|b l IH]; intros m p x; cbn [store length].
  - destruct (Z.leb_spec p x), (Z.ltb_spec x (p + Z.of_nat 0)); cbn [andb]; try lia; reflexivity.
  - rewrite IH. unfold upd. rewrite Nat2Z.inj_succ.
    destruct (Z.leb_spec (p + 1) x), (Z.ltb_spec x (p + 1 + Z.of_nat (length l))), (Z.leb_spec p x), (Z.ltb_spec x (p + Z.succ (Z.of_nat (length l)))), (Z.eqb_spec x p); cbn [andb]; try lia; try reflexivity.
    + replace (Z.to_nat (x - p)) with (S (Z.to_nat (x - (p + 1)))) by lia. reflexivity.
    + replace (Z.to_nat (x - p)) with 0%nat by lia. reflexivity.
Qed.
