(** * Execution of x86 instructions (specification, after the Intel SDM) and total-correctness reasoning

    Only what pnut's code generator emits.  Simplifications: page protection is not modelled (memory is total);
    flags are tracked only after CMP, other arithmetic leaves them unknown; the operating system stops the
    program when the stack pointer moves below the stack limit ([Over]); R11 is not tracked across SYSCALL. *)
From Coq Require Import ZArith List Lia Bool.
From Verif Require Import Base Asm AsmProof X86.
Import ListNotations.
Open Scope Z_scope.

Record flags := Fl { zf : bool; sf : bool; oflag : bool; cf : bool }.
(** Registers, memory (bytes), instruction pointer, flags; what was written to standard output, what is left of
    standard input, and the addresses the system will give to successive memory mappings. *)
Record mst := MS { rg : Z -> Z; mm : Z -> Z; pc : Z; fl : option flags; outp : list Z; inp : list Z; maps : list Z }.

Inductive outcome := Next (s : mst) | Over | Exit (code : Z) (s : mst) | Stuck.

(** [n] bytes at [a], little-endian. *)
Fixpoint rd (n : nat) (m : Z -> Z) (a : Z) : Z :=
  match n with O => 0 | S k => m a + 256 * rd k m (a + 1) end.
Fixpoint wrb (n : nat) (m : Z -> Z) (a v : Z) : Z -> Z :=
  match n with O => m | S k => wrb k (upd m a (v mod 256)) (a + 1) (v / 256) end.

Section Machine.
Variable W : Z.     (* word size in bytes, 4 or 8 *)
Variable slim : Z.  (* stack limit *)
Definition MOD : Z := 2 ^ (8 * W).
Definition HALF : Z := 2 ^ (8 * W - 1).
(** The signed reading of a word; of an [n]-byte quantity. *)
Definition sgn (v : Z) : Z := if HALF <=? v then v - MOD else v.
Definition sgnn (n v : Z) : Z := if 2 ^ (8 * n - 1) <=? v then v - 2 ^ (8 * n) else v.
Definition Wn : nat := Z.to_nat W.

Definition setr (s : mst) (r v : Z) : mst := MS (upd (rg s) r v) (mm s) (pc s) (fl s) (outp s) (inp s) (maps s).
Definition setm (s : mst) (m : Z -> Z) : mst := MS (rg s) m (pc s) (fl s) (outp s) (inp s) (maps s).
Definition setpc (s : mst) (p : Z) : mst := MS (rg s) (mm s) p (fl s) (outp s) (inp s) (maps s).
Definition setfl (s : mst) (f : option flags) : mst := MS (rg s) (mm s) (pc s) f (outp s) (inp s) (maps s).

Definition cmp_flags (a b : Z) : flags :=
  let d := (a - b) mod MOD in
  Fl (d =? 0) (HALF <=? d) (negb ((- HALF <=? sgn a - sgn b) && (sgn a - sgn b <? HALF))) (a <? b).
(** Condition codes. *)
Definition cond (cc : Z) (f : flags) : option bool :=
  let base := match cc / 2 with
              | 0 => Some (oflag f) | 1 => Some (cf f) | 2 => Some (zf f) | 3 => Some (cf f || zf f)
              | 4 => Some (sf f) | 6 => Some (xorb (sf f) (oflag f)) | 7 => Some (zf f || xorb (sf f) (oflag f))
              | _ => None
              end in
  match base with Some b => Some (if cc mod 2 =? 1 then negb b else b) | None => None end.

Definition shift_count : Z := if W =? 8 then 64 else 32.

(** System calls of Linux: i386 int 0x80 and x86-64 syscall. *)
Definition sys (s : mst) (nr a1 a2 a3 : Z) (is_exit is_read is_write is_mmap : bool) : outcome :=
  if is_exit then Exit (a1 mod 256) s
  else if is_write then
    if a1 =? 1 then
      let bytes := map (fun k => mm s (a2 + Z.of_nat k)) (seq 0 (Z.to_nat a3)) in
      Next (setr (MS (rg s) (mm s) (pc s) (fl s) (outp s ++ bytes) (inp s) (maps s)) 0 a3)
    else Stuck
  else if is_read then
    if a1 =? 0 then
      let bytes := map (fun c => c mod 256) (firstn (Z.to_nat a3) (inp s)) in
      Next (setr (MS (rg s) (wr (mm s) a2 bytes) (pc s) (fl s) (outp s) (skipn (Z.to_nat a3) (inp s)) (maps s)) 0
              (Z.of_nat (length bytes)))
    else Stuck
  else if is_mmap then
    match maps s with
    | a :: r => Next (setr (MS (rg s) (fun x => if (a <=? x) && (x <? a + a2) then 0 else mm s x) (pc s) (fl s) (outp s) (inp s) r) 0 a)
    | [] => Stuck
    end
  else Stuck.
Definition sys32 (s : mst) : outcome :=
  let nr := rg s 0 in
  sys s nr (rg s 3) (rg s 1) (rg s 2) (nr =? 1) (nr =? 3) (nr =? 4) (nr =? 192).
Definition sys64 (s : mst) : outcome :=
  let nr := rg s 0 in
  let s1 := setr (setfl s None) 1 (pc s) in
  sys s1 nr (rg s 7) (rg s 6) (rg s 2) (nr =? 60) (nr =? 0) (nr =? 1) (nr =? 9).

(** Execution; [pc s] is already the address of the next instruction. *)
Definition exec (i : instr) (s : mst) : outcome :=
  let r := rg s in
  match i with
  | IAlu op w d x =>
      if w =? W then
        match op with
        | Aadd => Next (setr (setfl s None) d ((r d + r x) mod MOD))
        | Aor => Next (setr (setfl s None) d (Z.lor (r d) (r x)))
        | Aand => Next (setr (setfl s None) d (Z.land (r d) (r x)))
        | Asub => Next (setr (setfl s None) d ((r d - r x) mod MOD))
        | Axor => Next (setr (setfl s None) d (Z.lxor (r d) (r x)))
        | Acmp => Next (setfl s (Some (cmp_flags (r d) (r x))))
        | Amov => Next (setr s d (r x))
        end
      else Stuck
  | IAddImm w d n =>
      if w =? W then
        if (d =? 4) && (n <? 0) && (r d + n <? slim) then Over
        else Next (setr (setfl s None) d ((r d + n) mod MOD))
      else Stuck
  | IMovImm w d n => if w =? W then Next (setr s d n) else Stuck
  | IStore w b o x => Next (setm s (wrb (Z.to_nat w) (mm s) ((r b + o) mod MOD) (r x)))
  | ILoad w d b o => if (w =? W) || (w =? 4) then Next (setr s d (rd (Z.to_nat w) (mm s) ((r b + o) mod MOD))) else Stuck
  | ILoadX n sg w d b o =>
      if w =? W then
        let v := rd (Z.to_nat n) (mm s) ((r b + o) mod MOD) in
        Next (setr s d (if sg then sgnn n v mod MOD else v))
      else Stuck
  | IImul w d x => if w =? W then Next (setr (setfl s None) d ((r d * r x) mod MOD)) else Stuck
  | IIdiv w x =>
      if w =? W then
        let n := sgn (r 2) * MOD + r 0 in
        let d := sgn (r x) in
        if d =? 0 then Stuck
        else let q := Z.quot n d in
             if (- HALF <=? q) && (q <? HALF)
             then Next (setr (setr (setfl s None) 0 (q mod MOD)) 2 (Z.rem n d mod MOD))
             else Stuck
      else Stuck
  | IDiv w x =>
      if w =? W then
        let n := r 2 * MOD + r 0 in
        let d := r x in
        if d =? 0 then Stuck
        else if n / d <? MOD then Next (setr (setr (setfl s None) 0 (n / d)) 2 (n mod d)) else Stuck
      else Stuck
  | ICdq w => if w =? W then Next (setr s 2 (if HALF <=? r 0 then MOD - 1 else 0)) else Stuck
  | IShift k w d =>
      if w =? W then
        let c := r 1 mod shift_count in
        Next (setr (setfl s None) d
          match k with Shl => (r d * 2 ^ c) mod MOD | Shr => r d / 2 ^ c | Sar => (sgn (r d) / 2 ^ c) mod MOD end)
      else Stuck
  | IPush x =>
      if r 4 - W <? slim then Over
      else Next (setr (setm s (wrb Wn (mm s) (r 4 - W) (r x))) 4 (r 4 - W))
  | IPop x => Next (setr (setr s 4 ((r 4 + W) mod MOD)) x (rd Wn (mm s) (r 4)))
  | IJmp d => Next (setpc s (pc s + d))
  | ICall d =>
      if r 4 - W <? slim then Over
      else Next (setpc (setr (setm s (wrb Wn (mm s) (r 4 - W) (pc s))) 4 (r 4 - W)) (pc s + d))
  | ICallR x =>
      if r 4 - W <? slim then Over
      else Next (setpc (setr (setm s (wrb Wn (mm s) (r 4 - W) (pc s))) 4 (r 4 - W)) (r x))
  | IRet => Next (setpc (setr s 4 ((r 4 + W) mod MOD)) (rd Wn (mm s) (r 4)))
  | IJcc cc d =>
      match fl s with
      | Some f => match cond cc f with Some b => Next (if b then setpc s (pc s + d) else s) | None => Stuck end
      | None => Stuck
      end
  | IInt n => if (W =? 4) && (n =? 128) then sys32 s else Stuck
  | ISyscall => if W =? 8 then sys64 s else Stuck
  end.

Definition step (s : mst) : outcome :=
  match decode W (mm s) (pc s) with
  | Some (i, n) => exec i (setpc s (pc s + n))
  | None => Stuck
  end.

(** [wp Q s]: execution from [s] reaches a state satisfying [Q], unless the stack is exhausted first. *)
Inductive wp (Q : mst -> Prop) (s : mst) : Prop :=
| wp_now : Q s -> wp Q s
| wp_next s' : step s = Next s' -> wp Q s' -> wp Q s
| wp_over : step s = Over -> wp Q s.

Lemma wp_bind s Q R : wp Q s -> (forall s', Q s' -> wp R s') -> wp R s.
Proof.
  intros H K. induction H as [s H|s s' H _ IH|s H].
  - apply K, H.
  - eapply wp_next; [exact H|apply IH].
  - apply wp_over, H.
Qed.
Lemma wp_mono s (Q R : mst -> Prop) : wp Q s -> (forall s', Q s' -> R s') -> wp R s.
Proof. intros H K. eapply wp_bind; [exact H|]. intros s' HQ. apply wp_now, K, HQ. Qed.
End Machine.

(** ** Memory lemmas *)
Definition bytes_ok (m : Z -> Z) : Prop := forall a, 0 <= m a < 256.
Lemma rd_range n m a : bytes_ok m -> 0 <= rd n m a < 256 ^ Z.of_nat n.
Proof.
  intros H. revert a. induction n as [|n IH]; intros a; cbn [rd]; [lia|].
  specialize (IH (a + 1)). specialize (H a).
  replace (256 ^ Z.of_nat (S n)) with (256 * 256 ^ Z.of_nat n) by (rewrite Nat2Z.inj_succ, Z.pow_succ_r by lia; reflexivity). lia.
Qed.
Lemma rd_ext n m m' a : (forall x, a <= x < a + Z.of_nat n -> m' x = m x) -> rd n m' a = rd n m a.
Proof.
  revert a. induction n as [|n IH]; intros a H; cbn [rd]; [reflexivity|].
  rewrite H, IH by (intros; try apply H; lia). reflexivity.
Qed.
Lemma wrb_out n : forall m a v x, x < a \/ a + Z.of_nat n <= x -> wrb n m a v x = m x.
Proof.
  induction n as [|n IH]; intros m a v x H; cbn [wrb]; [reflexivity|].
  rewrite IH by lia. apply upd_other. lia.
Qed.
Lemma rd_wrb n : forall m a v, rd n (wrb n m a v) a = v mod 256 ^ Z.of_nat n.
Proof.
  induction n as [|n IH]; intros m a v; cbn [rd wrb].
  - rewrite Z.mod_1_r. reflexivity.
  - rewrite IH, wrb_out by lia. rewrite upd_same.
    replace (256 ^ Z.of_nat (S n)) with (256 * 256 ^ Z.of_nat n) by (rewrite Nat2Z.inj_succ, Z.pow_succ_r by lia; reflexivity).
    rewrite Z.rem_mul_r by lia. reflexivity.
Qed.
Lemma wrb_bytes n : forall m a v, bytes_ok m -> bytes_ok (wrb n m a v).
Proof.
  induction n as [|n IH]; intros m a v H; cbn [wrb]; [exact H|]. apply IH. intros x. unfold upd.
  destruct (x =? a); [apply Z.mod_pos_bound; lia|apply H].
Qed.
(** A narrow read of a wide write. *)
Lemma rd_wrb_low k n m a v : (k <= n)%nat -> rd k (wrb n m a v) a = v mod 256 ^ Z.of_nat k.
Proof.
  revert k m a v. induction n as [|n IH]; intros k m a v H.
  - assert (k = O) as -> by lia. cbn [rd]. now rewrite Z.mod_1_r.
  - destruct k as [|k]; cbn [rd wrb]; [now rewrite Z.mod_1_r|].
    rewrite IH by lia. rewrite wrb_out by lia. rewrite upd_same.
    replace (256 ^ Z.of_nat (S k)) with (256 * 256 ^ Z.of_nat k) by (rewrite Nat2Z.inj_succ, Z.pow_succ_r by lia; reflexivity).
    rewrite Z.rem_mul_r by lia. reflexivity.
Qed.
