(* Input in generated shell scripts: _getchar (sh-runtime.c 521-570),
   unpack_line, refill_buffer, read_byte, _read and _fgetc (776-867, 926-932),
   and the buffer set up by _open (706-775). *)
From Coq Require Import ZArith List Bool Lia.
From Verif Require Import Base ShStr ShHeap.
Import ListNotations.
Open Scope Z_scope.

(* The shell's  IFS= read -r v : the text up to the next newline, the rest of
   the input, and whether a newline was found (its exit status). *)
Fixpoint read_line (inp : list Z) : list Z * list Z * bool :=
  match inp with
  | [] => ([], [], false)
  | c :: t => if c =? 10 then ([], t, true)
              else let '(l, r, ok) := read_line t in (c :: l, r, ok)
  end.

Section Input.
Variables (sg lookup compact : bool).
Notation first_char := (first_char sg lookup compact).

(* ---- _getchar, simple build ---- *)
Record gst := G { gbuf : list Z; gend : Z; ginp : list Z }.   (* __stdin_buf, __stdin_line_ending *)
Definition g0 (inp : list Z) := G [] 0 inp.
Definition getchar (s : gst) : Z * gst :=
  match gbuf s with
  | [] =>
    if negb (gend s =? 0) then (gend s, G [] 0 (ginp s))
    else
      let '(l, r, ok) := read_line (ginp s) in
      if ok then
        match l with
        | [] => (10, G [] (gend s) r)
        | _ => (first_char l, G (tl l) 10 r)
        end
      else
        match l with
        | [] => (-1, G [] (gend s) r)
        | _ => (first_char l, G (tl l) (-1) r)
        end
  | b => (first_char b, G (tl b) (gend s) (ginp s))
  end.
Fixpoint getchars (n : nat) (s : gst) : list Z :=
  match n with O => [] | S n => let (c, s') := getchar s in c :: getchars n s' end.

(* ---- _getchar, release build (OPTIMIZE_LONG_LINES) ---- *)
(* __stdin_buf16, __stdin_buf256, __stdin_buf, __stdin_line_ending, __stdin_end *)
Record lst := L { l16 : list Z; l256 : list Z; lbuf : list Z; lend : Z; lfin : bool; linp : list Z }.
Definition l0 (inp : list Z) := L [] [] [] 0 true inp.
Definition getchar_long_tail (s : lst) : Z * lst :=
  let '(b256, buf, _) := line_head 256 (l256 s) (lbuf s) in
  let '(b16, b256', e) := line_head 16 (l16 s) b256 in
  (first_char b16, L (tl b16) b256' buf (lend s) (if e then true else lfin s) (linp s)).
Definition getchar_long (s : lst) : Z * lst :=
  match l16 s, lfin s with
  | [], true =>
    if negb (lend s =? 0) then (lend s, L [] (l256 s) (lbuf s) 0 true (linp s))
    else
      let '(l, r, ok) := read_line (linp s) in
      match l with
      | [] => ((if ok then 10 else -1), L [] (l256 s) [] (lend s) false r)
      | _ => getchar_long_tail (L [] (l256 s) l (if ok then 10 else -1) false r)
      end
  | _, _ => getchar_long_tail s
  end.
Fixpoint getchars_long (n : nat) (s : lst) : list Z :=
  match n with O => [] | S n => let (c, s') := getchar_long s in c :: getchars_long n s' end.

(* ---- files ---- *)
(* unpack_line (lines 781-812): the numbers stored for the line *)
Fixpoint line_codes (l : list Z) : list Z :=
  match l with [] => [] | c :: t => first_char l :: line_codes t end.
(* the buffered variant (lines 792-804): inner loop over __fgetc_buf16 *)
Fixpoint line_codes_long (fuel : nat) (b256 buf : list Z) : list Z :=
  match fuel with
  | O => []
  | S f =>
    let '(b256, buf, _) := line_head 256 b256 buf in
    let '(b16, b256, e) := line_head 16 [] b256 in
    line_codes b16 ++ (if e then [] else line_codes_long f b256 buf)
  end.
Definition unpack_codes (long : bool) (l : list Z) : list Z :=
  if long then line_codes_long (S (length l)) [] l else line_codes l.

(* an open file: __buffer_fd, __cursor_fd, __buflen_fd; [data] is what the
   operating system has not delivered yet *)
Record fst_ := F { fbuf : Z; fcur : Z; flen : Z; data : list Z }.
Record rst := R { rh : heap; rf : fst_ }.

Section Files.
Variables (tag long : bool).

(* _open (lines 735-742) *)
Definition rt_open (h : heap) (content : list Z) : rst :=
  let (p, h1) := rt_malloc tag h 1000 in
  R (put h1 p 0) (F p 0 1000 content).

(* refill_buffer (lines 816-834); None: the script stops *)
Definition refill (s : rst) : option rst :=
  let '(l, r, ok) := read_line (data (rf s)) in
  let len := Z.of_nat (length l) in
  let grown :=
    if flen (rf s) - 2 <? len then
      match rt_free tag (rh s) (fbuf (rf s)) with
      | Some h1 => let (p, h2) := rt_malloc tag h1 (len * 2) in Some (h2, p, len * 2)
      | None => None
      end
    else Some (rh s, fbuf (rf s), flen (rf s)) in
  match grown with
  | Some (h, p, n) =>
    Some (R (put_list h p (unpack_codes long l ++ (if ok then [10] else []) ++ [0]))
            (F p (fcur (rf s)) n r))
  | None => None
  end.

(* read_byte (lines 836-852) *)
Definition read_byte (s : rst) : option (Z * rst) :=
  match cell (rh s) (fbuf (rf s) + fcur (rf s)) with
  | None => None
  | Some v =>
    if v =? 0 then
      match refill s with
      | None => None
      | Some s1 =>
        match cell (rh s1) (fbuf (rf s1) + 0) with
        | None => None
        | Some w =>
          if w =? 0 then Some (-1, s1)
          else Some (w, R (rh s1) (F (fbuf (rf s1)) 1 (flen (rf s1)) (data (rf s1))))
        end
      end
    else Some (v, R (rh s) (F (fbuf (rf s)) (fcur (rf s) + 1) (flen (rf s)) (data (rf s))))
  end.

(* _read (lines 857-866): the count, having stored the bytes from address [buf] *)
Fixpoint rt_read (count : nat) (buf : Z) (i : Z) (s : rst) : option (Z * rst) :=
  match count with
  | O => Some (i, s)
  | S k =>
    match read_byte s with
    | None => None
    | Some (b, s1) =>
      if b <? 0 then Some (i, s1)
      else rt_read k buf (i + 1) (R (put (rh s1) (buf + i) b) (rf s1))
    end
  end.

(* ---- the table of file descriptors (lines 706-775, 897-913) ----
   __state_fdN < 0: closed.  Descriptors opened for writing take a slot but are
   not modelled further. *)
Inductive slot := Closed | Output | Input (f : fst_).
Record sys := Sys { sheap : heap; slots : nat -> slot }.
Definition setslot (t : nat -> slot) (n : nat) (v : slot) : nat -> slot :=
  fun k => if Nat.eqb k n then v else t k.
(* the loop of lines 722-729: the first closed descriptor below 10 *)
Fixpoint free_slot (t : nat -> slot) (n left : nat) : option nat :=
  match left with
  | O => None
  | S k => match t n with Closed => Some n | _ => free_slot t (S n) k end
  end.
(* _open for reading; None: "No more file descriptors", the script stops *)
Definition sys_open (s : sys) (content : list Z) : option (nat * sys) :=
  match free_slot (slots s) 0 10 with
  | None => None
  | Some fd => let r := rt_open (sheap s) content in
               Some (fd, Sys (rh r) (setslot (slots s) fd (Input (rf r))))
  end.
Definition with_file (s : sys) (fd : nat) {A} (k : rst -> option (A * rst)) : option (A * sys) :=
  match slots s fd with
  | Input f => match k (R (sheap s) f) with
               | Some (a, r) => Some (a, Sys (rh r) (setslot (slots s) fd (Input (rf r))))
               | None => None
               end
  | _ => None
  end.
Definition sys_fgetc (s : sys) (fd : nat) : option (Z * sys) := with_file s fd read_byte.
Definition sys_read (s : sys) (fd : nat) (buf : Z) (count : nat) : option (Z * sys) :=
  with_file s fd (rt_read count buf 0).
(* _close (lines 897-913): free the buffer, mark the descriptor closed *)
Definition sys_close (s : sys) (fd : nat) : option sys :=
  match slots s fd with
  | Input f => match rt_free tag (sheap s) (fbuf f) with
               | Some h => Some (Sys h (setslot (slots s) fd Closed))
               | None => None
               end
  | _ => None
  end.
(* the start of a script that uses files (lines 709-721): descriptor 0 buffered
   on standard input, 1 and 2 for output *)
Definition sys_start (h : heap) (stdin : list Z) : sys :=
  let r := rt_open h stdin in
  Sys (rh r) (fun n => match n with O => Input (rf r) | 1%nat | 2%nat => Output | _ => Closed end).
End Files.
End Input.
