(** * portable_libc/src/stdlib.c (malloc, strtol) and stdio.c (_int_to_str, vfprintf, snprintf) *)
From Coq Require Import ZArith List Lia Bool.
From Verif Require Import Base Numerals Output Libc.
Import ListNotations.
Open Scope Z_scope.

(** ** strtol (stdlib.c:39-87) *)

(** stdlib.c:46-47: skip white space; [None]: fuel exhausted. *)
Fixpoint skip_spaces (fuel : nat) (m : mem) (p : Z) : option Z :=
  match fuel with
  | O => None
  | S f => if negb (m p =? 0) && (m p <=? 32) then skip_spaces f m (p + 1) else Some p
  end.

(** stdlib.c:67-76: the value of the character at [probe], 99 if it is not alphanumeric. *)
Definition strtol_digit (c : Z) : Z :=
  if (48 <=? c) && (c <=? 57) then c - 48
  else if (65 <=? c) && (c <=? 90) then c - 65 + 10
  else if (97 <=? c) && (c <=? 122) then c - 97 + 10
  else 99.

(** stdlib.c:66-80: the digit loop.  [probe] is not changed by the body; [n] is unbounded here. *)
Fixpoint strtol_digits (fuel : nat) (m : mem) (probe base n nb : Z) : option (Z * Z) :=
  match fuel with
  | O => None
  | S f => let d := strtol_digit (m probe) in
           if base <=? d then Some (n, nb)
           else strtol_digits f m probe base (n * base - d) (nb + 1)
  end.

(** stdlib.c:49-64: sign and prefix: (neg, probe, base, nb_digits). *)
Definition strtol_prefix (m : mem) (p base : Z) : bool * Z * Z * Z :=
  let neg := m p =? 45 in
  let p := if neg || (m p =? 43) then p + 1 else p in
  if m p =? 48 then
    let p := p + 1 in
    if (base =? 0) || (base =? 16) then
      if m p =? 120 then (neg, p + 1, 16, 0)
      else if base =? 0 then (neg, p, 8, 1) else (neg, p, base, 1)
    else (neg, p, base, 1)
  else (neg, p, base, 0).

(** stdlib.c:39-87; the result is the value returned and the address stored to [*endptr]. *)
Definition strtol (fuel : nat) (m : mem) (str base : Z) : option (Z * Z) :=
  match skip_spaces fuel m str with
  | None => None
  | Some p =>
      let '(neg, p, base, nb) := strtol_prefix m p base in
      match strtol_digits fuel m p base 0 nb with
      | None => None
      | Some (n, nb) => Some (if neg then n else - n, if nb =? 0 then str else p)
      end
  end.

(** ** _int_to_str (stdio.c:119-156) *)

(** [*--out = c] on the 100-byte buffer [_num_buf]: the list is the part of the buffer from [out]
    to its end; [None] is a write before the start of the buffer. *)
Definition NUM_BUF := 100.
Definition push (c : Z) (b : list Z) : option (list Z) :=
  if Z.of_nat (length b) <? NUM_BUF then Some (c :: b) else None.

(** The string literal "0123456789abcdef" indexed by a digit. *)
Definition digits_at (d : Z) : Z := if d <? 10 then 48 + d else 87 + d.

(** stdio.c:130-135: the digits of [n <= 0]. *)
Fixpoint its_digits (fuel : nat) (n base : Z) (b : list Z) : option (list Z) :=
  match fuel with
  | O => None
  | S f => match push (digits_at (- Z.rem n base)) b with
           | None => None
           | Some b' => if n <=? - base then its_digits f (Z.quot n base) base b' else Some b'
           end
  end.

(** stdio.c:140-142 and 148-150: push [c] while [NUM_BUF - out <= lim]. *)
Fixpoint its_pad (fuel : nat) (c lim : Z) (b : list Z) : option (list Z) :=
  match fuel with
  | O => None
  | S f => if Z.of_nat (length b) <=? lim
           then match push c b with Some b' => its_pad f c lim b' | None => None end
           else Some b
  end.

(** stdio.c:119-156; the result is the buffer from the returned pointer on, including the NUL. *)
Definition int_to_str (n base width : Z) (force_0 force_plus : bool) : option (list Z) :=
  let neg := n <? 0 in
  let has_sign := neg || force_plus in
  let n := if neg then n else - n in
  match push 0 [] with None => None | Some b =>
  match its_digits 33 n base b with None => None | Some b =>
  let width := if NUM_BUF <=? width then NUM_BUF - 1 else width in
  match (if force_0 then its_pad 101 48 (width - Z.b2z has_sign) b else Some b) with
  | None => None | Some b =>
  match (if has_sign then push (if neg then 45 else 43) b else Some b) with
  | None => None | Some b =>
  if force_0 then Some b else its_pad 101 32 width b
  end end end end.

(** ** vfprintf (stdio.c:158-203) *)
Inductive arg := AInt (z : Z) | AStr (s : list Z).

(** The characters [_fputstr] writes for a buffer: up to the first NUL (stdio.c:100-108). *)
Fixpoint cstring_of (l : list Z) : list Z :=
  match l with
  | [] => []
  | c :: r => if c =? 0 then [] else c :: cstring_of r
  end.

(** stdio.c:174-177: the width, with [c] the current character and [fmt] the rest. *)
Fixpoint scan_width (c : Z) (fmt : list Z) (w : Z) : Z * Z * list Z :=
  if (48 <=? c) && (c <=? 57) then
    match fmt with
    | [] => (w * 10 + (c - 48), 0, [])
    | c' :: r => scan_width c' r (w * 10 + (c - 48))
    end
  else (w, c, fmt).

(** stdio.c:178-180: the length modifiers. *)
Fixpoint scan_l (c : Z) (fmt : list Z) : Z * list Z :=
  if (c =? 108) || (c =? 76) then
    match fmt with [] => (0, []) | c' :: r => scan_l c' r end
  else (c, fmt).

(** One conversion (stdio.c:181-195), after flags, width and modifiers are read: the characters
    written and the remaining arguments.  A missing or mistyped argument is undefined ([None]). *)
Definition convert (c width : Z) (zero : bool) (args : list arg) : option (list Z * list arg) :=
  if c =? 99 then
    match args with AInt z :: r => Some ([to_char z], r) | _ => None end
  else if (c =? 100) || (c =? 117) || (c =? 111) || (c =? 120) then
    match args with
    | AInt z :: r =>
        let base := if c =? 120 then 16 else if c =? 111 then 8 else 10 in
        match int_to_str z base width zero false with
        | Some b => Some (cstring_of b, r)
        | None => None
        end
    | _ => None
    end
  else if c =? 115 then
    match args with AStr s :: r => Some (cstring_of s, r) | _ => None end
  else Some ([63; 63; 63], args).

(** stdio.c:158-203.  The format is the list of its characters without the final NUL; reading past
    that NUL is undefined ([None]).  The result is the sequence of characters passed to [fputc];
    the returned count is its length, since every branch adds the number of characters it writes. *)
Fixpoint vfprintf (fuel : nat) (fmt : list Z) (args : list arg) : option (list Z) :=
  match fuel with
  | O => None
  | S f =>
    match fmt with
    | [] => Some []
    | c :: fmt =>
      let literal := match vfprintf f fmt args with Some o => Some (c :: o) | None => None end in
      if c =? 37 then
        match fmt with
        | [] => None
        | c1 :: fmt1 =>
          if c1 =? 37 then
            match vfprintf f fmt1 args with Some o => Some (c1 :: o) | None => None end
          else
            let '(zero, c2, fmt2) :=
              if c1 =? 48 then match fmt1 with [] => (true, 0, []) | c' :: r => (true, c', r) end
              else (false, c1, fmt1) in
            let '(width, c3, fmt3) := scan_width c2 fmt2 0 in
            let '(c4, fmt4) := scan_l c3 fmt3 in
            if c4 =? 0 then None
            else match convert c4 width zero args with
                 | None => None
                 | Some (o, args') =>
                     match vfprintf f fmt4 args' with Some o' => Some (o ++ o') | None => None end
                 end
        end
      else literal
    end
  end.

(** stdio.c:76-86, the string branch of [fputc]: (memory, length so far). *)
Definition sfputc (str size : Z) (st : mem * Z) (c : Z) : mem * Z :=
  let '(m, len) := st in
  if len + 1 <? size then (upd m (str + len) (to_char c), len + 1) else st.

(** stdio.c:228-241 [vsnprintf]: the memory afterwards and the returned count. *)
Definition snprintf (fuel : nat) (m : mem) (str size : Z) (fmt : list Z) (args : list arg)
  : option (mem * Z) :=
  match vfprintf fuel fmt args with
  | None => None
  | Some o =>
      let '(m', len) := fold_left (sfputc str size) o (m, 0) in
      Some (upd m' (str + len) 0, Z.of_nat (length o))
  end.

(** ** malloc (stdlib.c:8-13), 64-bit build: [size_t] is unsigned long, [_heap_alloc] is int *)
Definition LIBC_HEAP := 1000000.
Definition malloc (alloc size : Z) : Z * option Z :=
  if LIBC_HEAP <? (alloc + size) mod 18446744073709551616 then (alloc, None)
  else (w32 (alloc + size), Some alloc).

(** A sequence of requests: (offset in [_heap], size) of each successful one, latest first;
    failed requests are recorded in the second list. *)
Fixpoint malloc_run (alloc : Z) (sizes : list Z) : Z * list (Z * Z) * list Z :=
  match sizes with
  | [] => (alloc, [], [])
  | s :: r => let '(a', res) := malloc alloc s in
              let '(a2, ok, ko) := malloc_run a' r in
              match res with
              | Some p => (a2, (p, s) :: ok, ko)
              | None => (a2, ok, s :: ko)
              end
  end.

(** ** Specifications *)

(** Number formatting: sign, then the canonical numeral, padded on the left to [width]. *)
Definition sign_chars (n : Z) (plus : bool) : list Z :=
  if n <? 0 then [45] else if plus then [43] else [].

Definition formatted (base n width : Z) (zero plus : bool) (s : list Z) : Prop :=
  exists ds, denotes base ds (Z.abs n) /\
    let sg := sign_chars n plus in
    let k := Z.to_nat (width - Z.of_nat (length sg) - Z.of_nat (length ds)) in
    s = if zero then sg ++ repeat 48 k ++ ds else repeat 32 k ++ sg ++ ds.

(** The C standard's conversions, for a format given as pieces. *)
Inductive conv := Cd | Cu | Co | Cx | Cc | Cs.
Inductive piece :=
| PChar (c : Z)                                            (* an ordinary character *)
| PPercent                                                 (* %% *)
| PConv (zero : bool) (width : list Z) (ls : nat) (c : conv).  (* %[0][width][l...]c *)

Definition conv_char (c : conv) : Z :=
  match c with Cd => 100 | Cu => 117 | Co => 111 | Cx => 120 | Cc => 99 | Cs => 115 end.

Definition piece_text (p : piece) : list Z :=
  match p with
  | PChar c => [c]
  | PPercent => [37; 37]
  | PConv z w l c => [37] ++ (if z then [48] else []) ++ w ++ repeat 108 l ++ [conv_char c]
  end.

Definition width_value (w : list Z) (v : Z) : Prop :=
  match w with [] => v = 0 | _ => denotes 10 w v /\ 0 < v end.

(** What one piece prints, and the arguments it leaves. *)
Definition piece_spec (p : piece) (args : list arg) (out : list Z) (rest : list arg) : Prop :=
  match p with
  | PChar c => out = [c] /\ rest = args
  | PPercent => out = [37] /\ rest = args
  | PConv z w _ c =>
      exists wv, width_value w wv /\
      match c, args with
      | Cd, AInt n :: r => formatted 10 n wv z false out /\ rest = r
      | Cu, AInt n :: r => formatted 10 (n mod 4294967296) wv z false out /\ rest = r
      | Co, AInt n :: r => formatted 8 (n mod 4294967296) wv z false out /\ rest = r
      | Cx, AInt n :: r => formatted 16 (n mod 4294967296) wv z false out /\ rest = r
      | Cc, AInt n :: r => out = repeat 32 (Z.to_nat (wv - 1)) ++ [to_char n] /\ rest = r
      | Cs, AStr s :: r => out = repeat 32 (Z.to_nat (wv - Z.of_nat (length s))) ++ s /\ rest = r
      | _, _ => False
      end
  end.

Inductive format_spec : list piece -> list arg -> list Z -> Prop :=
| fs_nil args : format_spec [] args []
| fs_cons p ps args out rest out' :
    piece_spec p args out rest -> format_spec ps rest out' -> format_spec (p :: ps) args (out ++ out').

(** ** Proofs *)

Lemma push_ok c b : Z.of_nat (length b) < 100 -> push c b = Some (c :: b).
Proof. intros. unfold push, NUM_BUF. destruct (Z.ltb_spec (Z.of_nat (length b)) 100); [reflexivity|lia]. Qed.

Lemma digits_at_digit d : 0 <= d < 16 -> digit_of (digits_at d) = Some d.
Proof. exact (hexchar_digit d). Qed.

(** Length of a numeral: base^(len-1) <= v unless it is one digit. *)
Lemma its_digits_ok base : 2 <= base <= 16 -> forall fuel n b,
  (0 < fuel)%nat -> - base ^ Z.of_nat fuel < n <= 0 ->
  Z.of_nat (length b) + Z.of_nat fuel <= 100 ->
  exists ds, its_digits fuel n base b = Some (ds ++ b) /\ denotes base ds (- n) /\
             (length ds <= fuel)%nat.
Proof.
  intros Hb. induction fuel as [|f IH]; intros n b Hf Hn Hl; [lia|].
  cbn [its_digits].
  rewrite Nat2Z.inj_succ, Z.pow_succ_r in Hn by lia.
  assert (Hr : - Z.rem n base = (- n) mod base).
  { rewrite <- (Z.opp_involutive n) at 1. rewrite Z.rem_opp_l by lia.
    rewrite Z.rem_mod_nonneg by lia. lia. }
  assert (Hq : Z.quot n base = - ((- n) / base)).
  { rewrite <- (Z.opp_involutive n) at 1. rewrite Z.quot_opp_l by lia.
    rewrite Z.quot_div_nonneg by lia. reflexivity. }
  rewrite Hr, Hq.
  pose proof (Z.mod_pos_bound (- n) base ltac:(lia)) as Hm.
  pose proof (Z.div_mod (- n) base ltac:(lia)) as Hd.
  rewrite push_ok by lia.
  destruct (Z.leb_spec n (- base)) as [Hle|Hgt].
  - assert (1 <= (- n) / base) by (apply Z.div_le_lower_bound; lia).
    assert ((- n) / base < base ^ Z.of_nat f) by (apply Z.div_lt_upper_bound; lia).
    destruct (IH (- (- n / base)) (digits_at ((- n) mod base) :: b)) as (ds & E & Hden & Hlen).
    + destruct f; [cbn in *; lia|lia].
    + lia.
    + cbn [length]. lia.
    + exists (ds ++ [digits_at ((- n) mod base)]). split; [|split].
      * rewrite E. rewrite <- app_assoc. reflexivity.
      * eapply denotes_eq; [eapply denotes_snoc; [exact Hden|lia|apply digits_at_digit; lia|lia]|lia].
      * rewrite app_length. cbn [length]. lia.
  - exists [digits_at ((- n) mod base)]. split; [reflexivity|]. split.
    + rewrite Z.mod_small by lia. apply denotes_single; [apply digits_at_digit|]; lia.
    + cbn. lia.
Qed.

Lemma its_pad_ok c lim : lim <= 99 -> forall fuel b, 
  Z.of_nat (length b) <= 100 -> 101 <= Z.of_nat fuel + Z.of_nat (length b) ->
  its_pad fuel c lim b = Some (repeat c (Z.to_nat (lim + 1 - Z.of_nat (length b))) ++ b).
Proof.
  intros Hlim. induction fuel as [|f IH]; intros b Hb Hf; [lia|]. cbn [its_pad].
  destruct (Z.leb_spec (Z.of_nat (length b)) lim).
  - rewrite push_ok by lia. rewrite IH by (cbn [length]; lia). f_equal. cbn [length].
    replace (Z.to_nat (lim + 1 - Z.of_nat (length b)))
      with (S (Z.to_nat (lim + 1 - Z.of_nat (S (length b))))) by lia.
    cbn [repeat]. rewrite repeat_cons. rewrite <- app_assoc. reflexivity.
  - replace (Z.to_nat (lim + 1 - Z.of_nat (length b))) with O by lia. reflexivity.
Qed.

Lemma denotes_len_pos b ds v : denotes b ds v -> (1 <= length ds)%nat.
Proof. intros (H & _). destruct ds; [discriminate|cbn; lia]. Qed.

Lemma pow_lb base : 2 <= base -> 2147483648 < base ^ 33.
Proof.
  intros. apply Z.lt_le_trans with (2 ^ 33); [reflexivity|].
  apply Z.pow_le_mono_l. lia.
Qed.

Lemma int_to_str_ok n base width zero plus : int_range n -> 2 <= base <= 16 ->
  exists s, int_to_str n base width zero plus = Some (s ++ [0]) /\
            formatted base n (Z.min width 99) zero plus s.
Proof.
  intros Hn Hb. unfold int_to_str. rewrite push_ok by (cbn; lia).
  set (nn := if n <? 0 then n else - n).
  assert (Hnn : - nn = Z.abs n) by (unfold nn; destruct (Z.ltb_spec n 0); lia).
  pose proof (pow_lb base ltac:(lia)) as Hp.
  unfold int_range in Hn.
  destruct (its_digits_ok base Hb 33 nn [0]) as (ds & E & Hd & Hl).
  - lia.
  - change (Z.of_nat 33) with 33. lia.
  - cbn. lia.
  - rewrite E. rewrite Hnn in Hd. clear E.
    set (w := if NUM_BUF <=? width then NUM_BUF - 1 else width).
    assert (Hw : w = Z.min width 99) by (unfold w, NUM_BUF; destruct (Z.leb_spec 100 width); lia).
    rewrite Hw. clearbody w. clear Hw.
    pose proof (denotes_len_pos _ _ _ Hd) as Hlp.
    assert (Hlen : length (ds ++ [0]) = S (length ds)) by (rewrite app_length; cbn; lia).
    set (W := Z.min width 99). assert (HW : W <= 99) by (unfold W; lia). clearbody W.
    destruct zero.
    + rewrite its_pad_ok; [|destruct ((n <? 0) || plus); cbn; lia|lia|lia]. rewrite Hlen.
      assert (Hpl : forall k, (k <= 99)%nat -> length (repeat 48 k ++ ds ++ [0]) = (k + S (length ds))%nat).
      { intros. rewrite app_length, repeat_length, Hlen. reflexivity. }
      unfold formatted, sign_chars.
      destruct (Z.ltb_spec n 0); cbn [orb].
      * rewrite push_ok by (rewrite Hpl; cbn; lia).
        eexists ([45] ++ repeat 48 _ ++ ds). split.
        -- rewrite <- !app_assoc. reflexivity.
        -- exists ds. split; [exact Hd|]. cbn [length Z.b2z]. do 2 f_equal. f_equal. lia.
      * destruct plus.
        -- rewrite push_ok by (rewrite Hpl; cbn; lia).
           eexists ([43] ++ repeat 48 _ ++ ds). split.
           ++ rewrite <- !app_assoc. reflexivity.
           ++ exists ds. split; [exact Hd|]. cbn [length Z.b2z]. do 2 f_equal. f_equal. lia.
        -- eexists (repeat 48 _ ++ ds). split.
           ++ rewrite <- !app_assoc. reflexivity.
           ++ exists ds. split; [exact Hd|]. cbn [length Z.b2z app]. f_equal. f_equal. lia.
    + unfold formatted, sign_chars.
      destruct (Z.ltb_spec n 0); cbn [orb]; [|destruct plus].
      * rewrite push_ok by lia. rewrite its_pad_ok; [|lia|cbn [length]; lia|cbn [length]; lia].
        eexists (repeat 32 _ ++ [45] ++ ds). split.
        -- rewrite <- !app_assoc. reflexivity.
        -- exists ds. split; [exact Hd|]. cbn [length]. f_equal. f_equal. lia.
      * rewrite push_ok by lia. rewrite its_pad_ok; [|lia|cbn [length]; lia|cbn [length]; lia].
        eexists (repeat 32 _ ++ [43] ++ ds). split.
        -- rewrite <- !app_assoc. reflexivity.
        -- exists ds. split; [exact Hd|]. cbn [length]. f_equal. f_equal. lia.
      * rewrite its_pad_ok; [|lia|lia|lia].
        eexists (repeat 32 _ ++ ds). split.
        -- rewrite <- !app_assoc. reflexivity.
        -- exists ds. split; [exact Hd|]. cbn [length app]. f_equal. f_equal. lia.
Qed.

Lemma cstring_of_app s r : Forall (fun c => c <> 0) s -> cstring_of (s ++ 0 :: r) = s.
Proof.
  induction 1 as [|c s Hc _ IH]; [reflexivity|]. cbn [app cstring_of].
  destruct (Z.eqb_spec c 0); [contradiction|]. now rewrite IH.
Qed.
Lemma cstring_of_clean s : Forall (fun c => c <> 0) s -> cstring_of s = s.
Proof.
  induction 1 as [|c s Hc _ IH]; [reflexivity|]. cbn [cstring_of].
  destruct (Z.eqb_spec c 0); [contradiction|]. now rewrite IH.
Qed.

Lemma digit_nonzero b c : is_digit b c -> c <> 0.
Proof.
  intros (d & H & _). unfold digit_of in H. intros ->. cbn in H. discriminate.
Qed.

Lemma denotes_clean b ds v : denotes b ds v -> Forall (fun c => c <> 0) ds.
Proof.
  intros (H & _). unfold numeral_value in H. destruct ds; [constructor|].
  apply value_from_digits in H. eapply Forall_impl; [|exact H]. intros a Ha. eapply digit_nonzero; eauto.
Qed.

Lemma formatted_clean base n width zero plus s :
  formatted base n width zero plus s -> Forall (fun c => c <> 0) s.
Proof.
  intros (ds & Hd & ->). apply denotes_clean in Hd.
  assert (Hr : forall c k, c <> 0 -> Forall (fun c => c <> 0) (repeat c k)).
  { intros c k Hc. induction k; constructor; auto. }
  assert (Hs : Forall (fun c => c <> 0) (sign_chars n plus)).
  { unfold sign_chars. destruct (n <? 0); [|destruct plus]; repeat constructor; lia. }
  destruct zero; repeat (apply Forall_app; split); auto; apply Hr; lia.
Qed.

(** Scanning the width. *)
Lemma scan_width_digits w : forall c r acc v,
  value_from 10 acc w = Some v -> ~ (48 <= c <= 57) -> (length w > 0)%nat ->
  Forall (fun c => 48 <= c <= 57) w ->
  match w with
  | [] => True
  | d :: w' => scan_width d (w' ++ c :: r) acc = (v, c, r)
  end.
Proof.
  induction w as [|d w IH]; intros c r acc v Hv Hc Hl F; [exact I|].
  inversion F; subst. cbn [value_from] in Hv.
  unfold digit_of in Hv. 
  assert (E : (48 <=? d) && (d <=? 57) = true).
  { apply andb_true_iff; rewrite !Z.leb_le; lia. }
  rewrite E in Hv. destruct (Z.ltb_spec (d - 48) 10); [|lia].
  destruct w as [|d' w].
  - cbn [value_from] in Hv. injection Hv as <-. cbn [app].
    cbn [scan_width]. rewrite E.
    assert (E2 : (48 <=? c) && (c <=? 57) = false).
    { apply andb_false_iff. rewrite !Z.leb_gt. lia. }
    destruct r; cbn [scan_width]; rewrite E2; reflexivity.
  - cbn [app scan_width]. rewrite E. specialize (IH c r (acc * 10 + (d - 48)) v Hv Hc).
    cbn [length] in *. specialize (IH ltac:(lia)). rewrite IH; auto.
Qed.

Lemma scan_l_ok l : forall c r, c <> 108 -> c <> 76 ->
  match repeat 108 l ++ c :: r with
  | [] => True
  | d :: r' => scan_l d r' = (c, r)
  end.
Proof.
  induction l as [|l IH]; intros c r H1 H2.
  - cbn [repeat app]. destruct (Z.eqb_spec c 108); [contradiction|]. 
    destruct r; cbn [scan_l]; (destruct (Z.eqb_spec c 108); [contradiction|]); (destruct (Z.eqb_spec c 76); [contradiction|]); reflexivity.
  - cbn [repeat app]. specialize (IH c r H1 H2).
    destruct (repeat 108 l ++ c :: r) as [|d r'] eqn:E.
    + destruct l; discriminate.
    + cbn [scan_l]. exact IH.
Qed.


(** Pieces on which the code follows the standard: no width on %c and %s, widths below the size
    of the conversion buffer, and nonnegative arguments for the unsigned conversions. *)
Definition piece_ok (p : piece) (args : list arg) : Prop :=
  match p with
  | PChar c => c <> 37 /\ c <> 0 
  | PPercent => True
  | PConv z w _ c =>
      Forall (fun c => 48 <= c <= 57) w /\ (exists wv, width_value w wv /\ wv < 100) /\
      match c, args with
      | Cd, AInt n :: _ => int_range n
      | (Cu | Co | Cx), AInt n :: _ => 0 <= n < 2147483648
      | Cc, AInt n :: _ => w = []
      | Cs, AStr s :: _ => w = [] /\ Forall (fun c => c <> 0) s
      | _, _ => False
      end
  end.

Inductive format_ok : list piece -> list arg -> Prop :=
| fo_nil args : format_ok [] args
| fo_cons p ps args out rest : piece_ok p args -> piece_spec p args out rest ->
    format_ok ps rest -> format_ok (p :: ps) args.

Lemma width_value_fun w a b : width_value w a -> width_value w b -> a = b.
Proof.
  destruct w; cbn; [congruence|]. intros ((Ha & _) & _) ((Hb & _) & _). congruence.
Qed.

Lemma width_first w wv d w' : width_value w wv -> w = d :: w' -> d <> 48.
Proof.
  intros H ->. destruct H as ((Hv & Hc) & Hp). destruct Hc as [E|(c & r & E & Hne)].
  - injection E as -> ->. vm_compute in Hv. injection Hv as <-. lia.
  - injection E as -> ->. exact Hne.
Qed.

(** What the code prints for one acceptable piece. *)
Definition piece_out (p : piece) (args : list arg) : option (list Z * list arg) :=
  match p with
  | PChar c => Some ([c], args)
  | PPercent => Some ([37], args)
  | PConv z w l c => 
     let wv := match value_from 10 0 w with Some v => v | None => 0 end in
     convert (conv_char c) wv z args
  end.

Lemma conv_char_cases c : conv_char c <> 108 /\ conv_char c <> 76 /\ conv_char c <> 0 /\
  ~ (48 <= conv_char c <= 57) /\ conv_char c <> 37.
Proof. destruct c; cbn [conv_char]; lia. Qed.

Lemma vfprintf_piece f p args fmt out rest : piece_ok p args ->
  piece_out p args = Some (out, rest) ->
  vfprintf (S f) (piece_text p ++ fmt) args =
  match vfprintf f fmt rest with Some o => Some (out ++ o) | None => None end.
Proof.
  destruct p as [c| |z w l c]; cbn [piece_ok piece_out piece_text].
  - intros (H1 & H2) [= <- <-]. cbn [app vfprintf]. destruct (Z.eqb_spec c 37); [contradiction|]. reflexivity.
  - intros _ [= <- <-]. reflexivity.
  - intros (Fw & (wv & Hwv & _) & _) E.
    pose proof (conv_char_cases c) as (K1 & K2 & K3 & K4 & K5).
    set (cc := conv_char c) in *.
    (* tail after the width *)
    assert (HL : exists d r, repeat 108 l ++ cc :: fmt = d :: r /\ scan_l d r = (cc, fmt) /\ ~ (48 <= d <= 57) /\ d <> 37).
    { pose proof (scan_l_ok l cc fmt K1 K2) as HS.
      destruct (repeat 108 l ++ cc :: fmt) as [|d r] eqn:ER; [destruct l; discriminate|].
      exists d, r. repeat split; auto; destruct l; cbn in ER; injection ER as <- <-; try lia. }
    destruct HL as (d & r & ER & HS & Hnd & Hd37).
    assert (HW : exists c2 r2, w ++ d :: r = c2 :: r2 /\ c2 <> 48 /\ c2 <> 37 /\
              scan_width c2 r2 0 = (match value_from 10 0 w with Some v => v | None => 0 end, d, r)).
    { destruct w as [|d0 w'].
      - exists d, r. split; [reflexivity|]. split; [lia|]. split; [assumption|].
        assert (E2 : (48 <=? d) && (d <=? 57) = false).
        { apply andb_false_iff. rewrite !Z.leb_gt. lia. }
        destruct r; cbn [scan_width value_from]; rewrite E2; reflexivity.
      - exists d0, (w' ++ d :: r). split; [reflexivity|].
        split; [eapply width_first; eauto|]. split; [inversion Fw; lia|].
        destruct Hwv as ((Hv & _) & _). cbn [numeral_value] in Hv. rewrite Hv.
        apply (scan_width_digits (d0 :: w')); auto. cbn; lia. }
    destruct HW as (c2 & r2 & EW & Hc2 & Hc2' & HSW).
    assert (ET : ([37] ++ (if z then [48] else []) ++ w ++ repeat 108 l ++ [cc]) ++ fmt =
                 37 :: (if z then [48] else []) ++ c2 :: r2).
    { rewrite <- !app_assoc. cbn [app]. rewrite ER. rewrite EW. reflexivity. }
    rewrite ET. destruct z; cbn [app vfprintf].
    + rewrite Z.eqb_refl. change (48 =? 37) with false. change (48 =? 48) with true. cbn iota.
      rewrite HSW, HS. destruct (Z.eqb_spec cc 0); [contradiction|]. rewrite E. reflexivity.
    + rewrite Z.eqb_refl. destruct (Z.eqb_spec c2 37); [contradiction|]. destruct (Z.eqb_spec c2 48); [contradiction|].
      rewrite HSW, HS. destruct (Z.eqb_spec cc 0); [contradiction|]. rewrite E. reflexivity.
Qed.

Lemma formatted_eq base n n' width width' zero plus s : n = n' -> width = width' ->
  formatted base n width zero plus s -> formatted base n' width' zero plus s.
Proof. now intros -> ->. Qed.

Lemma piece_out_ok p args out rest : piece_ok p args -> piece_spec p args out rest ->
  exists out', piece_out p args = Some (out', rest) /\ piece_spec p args out' rest.
Proof.
  destruct p as [c| |z w l c]; cbn [piece_ok piece_out piece_spec].
  - intros _ (-> & ->). eauto.
  - intros _ (-> & ->). eauto.
  - intros (Fw & (wv & Hwv & Hlt) & Hc) (wv' & Hwv' & Hs).
    assert (wv' = wv) as -> by (eapply width_value_fun; eauto). clear Hwv'.
    assert (Hv : (match value_from 10 0 w with Some v => v | None => 0 end) = wv).
    { destruct w; [cbn in *; congruence|]. destruct Hwv as ((Hv & _) & _). cbn [numeral_value] in Hv. now rewrite Hv. }
    rewrite Hv.
    assert (KEY : forall base n r, int_range n -> 2 <= base <= 16 ->
      exists s, (match int_to_str n base wv z false with
                 | Some b => Some (cstring_of b, r) | None => None end) = Some (s, r : list arg) /\
                formatted base n wv z false s).
    { intros base n r Hn Hb. destruct (int_to_str_ok n base wv z false Hn Hb) as (s & -> & F).
      rewrite Z.min_l in F by lia. exists s. split; [|exact F].
      rewrite cstring_of_app; [reflexivity|]. eapply formatted_clean; eauto. }
    unfold convert.
    destruct c, args as [|[n|s] args]; cbn [conv_char] in *; try contradiction;
      destruct Hs as (Hs & ->).
    + destruct (KEY 10 n args) as (s & E & F); [exact Hc|lia|].
      exists s. split; [exact E|]. exists wv. auto.
    + destruct (KEY 10 n args) as (s & E & F); [unfold int_range; lia|lia|].
      exists s. split; [exact E|]. exists wv. split; [exact Hwv|]. split; [|reflexivity].
      eapply formatted_eq; [|reflexivity|exact F]. rewrite Z.mod_small; lia.
    + destruct (KEY 8 n args) as (s & E & F); [unfold int_range; lia|lia|].
      exists s. split; [exact E|]. exists wv. split; [exact Hwv|]. split; [|reflexivity].
      eapply formatted_eq; [|reflexivity|exact F]. rewrite Z.mod_small; lia.
    + destruct (KEY 16 n args) as (s & E & F); [unfold int_range; lia|lia|].
      exists s. split; [exact E|]. exists wv. split; [exact Hwv|]. split; [|reflexivity].
      eapply formatted_eq; [|reflexivity|exact F]. rewrite Z.mod_small; lia.
    + exists [to_char n]. split; [reflexivity|]. exists wv. split; [exact Hwv|]. split; [|reflexivity].
      subst w. cbn in Hwv. subst wv. reflexivity.
    + destruct Hc as (-> & Hcl). rewrite cstring_of_clean by assumption. exists s. split; [reflexivity|].
      exists wv. split; [exact Hwv|]. split; [|reflexivity]. cbn in Hwv. subst wv.
      replace (Z.to_nat (0 - Z.of_nat (length s))) with O by lia. reflexivity.
Qed.

Lemma format_ok_printed ps args : format_ok ps args -> forall fuel, (length ps < fuel)%nat ->
  exists out, vfprintf fuel (concat (map piece_text ps)) args = Some out /\ format_spec ps args out.
Proof.
  induction 1 as [args|p ps args out rest Hp Hs _ IH]; intros fuel Hf.
  - destruct fuel; [lia|]. exists []. split; [reflexivity|constructor].
  - destruct fuel; [lia|]. destruct (piece_out_ok _ _ _ _ Hp Hs) as (out' & E & Hs').
    destruct (IH fuel) as (o & Eo & So); [cbn [length] in Hf; lia|].
    cbn [map concat]. rewrite (vfprintf_piece fuel p args _ out' rest Hp E). rewrite Eo.
    eexists; split; [reflexivity|]. econstructor; eauto.
Qed.

(** snprintf *)
Lemma sfputc_fold str size : 1 <= size -> forall o m len, 0 <= len <= size - 1 ->
  exists m', fold_left (sfputc str size) o (m, len) =
     (m', Z.min (size - 1) (len + Z.of_nat (length o))) /\
  forall x, m' x = if (str + len <=? x) && (x <? str + Z.min (size - 1) (len + Z.of_nat (length o)))
                   then to_char (nth (Z.to_nat (x - str - len)) o 0) else m x.
Proof.
  intros Hs. induction o as [|c o IH]; intros m len Hl.
  - exists m. split.
    + cbn. f_equal. lia.
    + intros x. cbn [length]. bdestr; cbn [andb]; try reflexivity; lia.
  - cbn [fold_left].
    change (sfputc str size (m, len) c) with
      (if len + 1 <? size then (upd m (str + len) (to_char c), len + 1) else (m, len)).
    destruct (Z.ltb_spec (len + 1) size).
    + destruct (IH (upd m (str + len) (to_char c)) (len + 1)) as (m' & E & P); [lia|].
      exists m'. cbn [length]. split; [etransitivity; [exact E|f_equal; lia]|].
      intros x. rewrite P. unfold upd.
      replace (len + 1 + Z.of_nat (length o)) with (len + Z.of_nat (S (length o))) by lia.
      destruct (Z.eqb_spec x (str + len)) as [->|Hne].
      * replace (Z.to_nat (str + len - str - len)) with O by lia. cbn [nth].
        bdestr; cbn [andb]; try reflexivity; lia.
      * replace (Z.to_nat (x - str - len)) with
          (if str + len <=? x then S (Z.to_nat (x - str - (len + 1))) else Z.to_nat (x - str - len)) by (bdestr; lia).
        bdestr; cbn [andb nth]; try reflexivity; lia.
    + destruct (IH m len) as (m' & E & P); [lia|].
      exists m'. cbn [length]. split; [etransitivity; [exact E|f_equal; lia]|].
      intros x. rewrite P. bdestr; cbn [andb]; try reflexivity; lia.
Qed.

Lemma snprintf_ok fuel m str size fmt args o : 1 <= size ->
  vfprintf fuel fmt args = Some o ->
  exists m', snprintf fuel m str size fmt args = Some (m', Z.of_nat (length o)) /\
    (forall i, 0 <= i < Z.min (size - 1) (Z.of_nat (length o)) ->
        m' (str + i) = to_char (nth (Z.to_nat i) o 0)) /\
    m' (str + Z.min (size - 1) (Z.of_nat (length o))) = 0 /\
    (forall x, x < str \/ str + Z.min (size - 1) (Z.of_nat (length o)) < x -> m' x = m x).
Proof.
  intros Hs E. unfold snprintf. rewrite E.
  destruct (sfputc_fold str size Hs o m 0) as (m' & Ef & P); [lia|]. rewrite Ef.
  cbn [Z.add] in *. eexists; split; [reflexivity|]. split; [|split].
  - intros i Hi. rewrite upd_other by lia. rewrite P.
    replace (str + i - str - 0) with i by lia. bdestr; cbn [andb]; try reflexivity; lia.
  - apply upd_same.
  - intros x Hx. rewrite upd_other by lia. rewrite P. bdestr; cbn [andb]; try reflexivity; lia.
Qed.

(** strtol *)
Lemma strtol_digits_diverge m probe base : strtol_digit (m probe) < base ->
  forall fuel n nb, strtol_digits fuel m probe base n nb = None.
Proof.
  intros H. induction fuel as [|f IH]; intros n nb; [reflexivity|]. cbn [strtol_digits].
  destruct (Z.leb_spec base (strtol_digit (m probe))); [lia|]. apply IH.
Qed.

Lemma strtol_digits_stop m probe base fuel n nb : base <= strtol_digit (m probe) ->
  (0 < fuel)%nat -> strtol_digits fuel m probe base n nb = Some (n, nb).
Proof.
  intros H Hf. destruct fuel; [lia|]. cbn [strtol_digits].
  destruct (Z.leb_spec base (strtol_digit (m probe))); [reflexivity|lia].
Qed.

Lemma strtol_digit_of c d : digit_of c = Some d -> strtol_digit c = d.
Proof.
  unfold digit_of, strtol_digit. intros H.
  destruct ((48 <=? c) && (c <=? 57)); [injection H; lia|].
  destruct ((65 <=? c) && (c <=? 90)); [injection H; lia|].
  destruct ((97 <=? c) && (c <=? 122)); [injection H; lia|discriminate].
Qed.
Lemma strtol_digit_not c : digit_of c = None -> strtol_digit c = 99.
Proof.
  unfold digit_of, strtol_digit. intros H.
  destruct ((48 <=? c) && (c <=? 57)); [discriminate|].
  destruct ((65 <=? c) && (c <=? 90)); [discriminate|].
  destruct ((97 <=? c) && (c <=? 122)); [discriminate|reflexivity].
Qed.

Lemma skip_spaces_ok k : forall fuel m p,
  (forall i, 0 <= i < Z.of_nat k -> 0 < m (p + i) <= 32) ->
  (m (p + Z.of_nat k) = 0 \/ 32 < m (p + Z.of_nat k)) -> (k < fuel)%nat ->
  skip_spaces fuel m p = Some (p + Z.of_nat k).
Proof.
  induction k as [|k IH]; intros fuel m p Hs He Hf; (destruct fuel; [lia|]); cbn [skip_spaces].
  - rewrite Z.add_0_r in *. bdestr; cbn [andb negb]; try reflexivity; lia.
  - specialize (Hs 0 ltac:(lia)) as H0. rewrite Z.add_0_r in H0.
    destruct (Z.eqb_spec (m p) 0); [lia|]. destruct (Z.leb_spec (m p) 32); [|lia]. cbn [negb andb].
    rewrite IH.
    + f_equal. lia.
    + intros i Hi. replace (p + 1 + i) with (p + (i + 1)) by lia. apply Hs. lia.
    + replace (p + 1 + Z.of_nat k) with (p + Z.of_nat (S k)) by lia. exact He.
    + lia.
Qed.

Lemma skip_spaces_mono f m : forall p q f', skip_spaces f m p = Some q -> (f <= f')%nat ->
  skip_spaces f' m p = Some q.
Proof.
  induction f as [|f IH]; intros p q f' H Hf; [discriminate|]. destruct f'; [lia|].
  cbn [skip_spaces] in *. destruct (negb (m p =? 0) && (m p <=? 32)); [apply IH; auto; lia|exact H].
Qed.

(** malloc *)

Lemma malloc_spec alloc s : 0 <= alloc <= LIBC_HEAP -> 0 <= s < 18446744073708551616 ->
  malloc alloc s = if LIBC_HEAP <? alloc + s then (alloc, None) else (alloc + s, Some alloc).
Proof.
  unfold malloc, LIBC_HEAP. intros Ha Hs. rewrite Z.mod_small by lia.
  destruct (Z.ltb_spec 1000000 (alloc + s)); [reflexivity|].
  rewrite w32_id; [reflexivity|]. unfold int_range. lia.
Qed.

Lemma malloc_run_ok sizes : forall alloc, 0 <= alloc <= LIBC_HEAP ->
  Forall (fun s => 0 <= s < 18446744073708551616) sizes ->
  let '(a2, ok, ko) := malloc_run alloc sizes in
  alloc <= a2 <= LIBC_HEAP /\
  (forall p s, In (p, s) ok -> alloc <= p /\ p + s <= a2) /\
  (forall i j p s q t, (i < j)%nat -> nth_error ok i = Some (p, s) -> nth_error ok j = Some (q, t) ->
     p + s <= q).
Proof.
  induction sizes as [|s r IH]; intros alloc Ha F; cbn [malloc_run].
  - split; [lia|]. split; [intros ? ? []|]. intros i j ? ? ? ? _ H. destruct i; discriminate.
  - inversion F; subst. rewrite malloc_spec by assumption.
    destruct (Z.ltb_spec LIBC_HEAP (alloc + s)).
    + specialize (IH alloc Ha H2). destruct (malloc_run alloc r) as [[a2 ok] ko]. exact IH.
    + specialize (IH (alloc + s)). destruct (malloc_run (alloc + s) r) as [[a2 ok] ko].
      destruct IH as (B & I & D); [lia|assumption|]. split; [lia|]. split.
      * intros p t [E|Hin]; [injection E as <- <-; lia|]. apply I in Hin. lia.
      * intros i j p t q u Hij Hi Hj. destruct j; [lia|]. cbn [nth_error] in Hj.
        destruct i; cbn [nth_error] in Hi.
        -- injection Hi as <- <-. apply nth_error_In, I in Hj. lia.
        -- apply (D i j p t q u); [lia|assumption|assumption].
Qed.
