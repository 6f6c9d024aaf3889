(* Characters and strings in generated shell scripts: how the shell reads the
   text the compiler writes, the run-time conversion of characters to numbers
   and the unpacking of strings (sh-runtime.c 24-80, 111-275, 405-486, 514-519).
   Scripts run with LC_ALL=C (sh.c 2513): a character is a byte. *)
From Coq Require Import ZArith List Bool Lia.
From Verif Require Import Base Text.
Import ListNotations.
Open Scope Z_scope.

(* ---- the shell's own rules (POSIX XCU 2.2.3, printf(1)) ---- *)

(* Text between double quotes: a backslash is removed before $ ` " \ and
   newline (the latter is removed too), kept otherwise.  None: an unescaped $
   or ` would be expanded, an unescaped " would end the string. *)
Fixpoint dquote (l : list Z) : option (list Z) :=
  match l with
  | [] => Some []
  | c :: t =>
    if c =? 92 then
      match t with
      | d :: t' =>
        if (d =? 36) || (d =? 96) || (d =? 34) || (d =? 92) then option_map (cons d) (dquote t')
        else if d =? 10 then dquote t'
        else option_map (fun r => c :: d :: r) (dquote t')
      | [] => None
      end
    else if (c =? 36) || (c =? 96) || (c =? 34) then None
    else option_map (cons c) (dquote t)
  end.

Definition isoct (c : Z) : bool := (48 <=? c) && (c <=? 55).
(* A printf(1) format without conversions: \\ \a \b \f \n \r \t \v, one to three
   octal digits, %%; anything else special is unspecified (None). *)
Fixpoint sh_fmt (l : list Z) : option (list Z) :=
  match l with
  | [] => Some []
  | c :: t =>
    if c =? 37 then
      match t with
      | d :: t' => if d =? 37 then option_map (cons 37) (sh_fmt t') else None
      | [] => None end
    else if c =? 92 then
      match t with
      | d :: t' =>
        if d =? 92 then option_map (cons 92) (sh_fmt t')
        else if d =? 97 then option_map (cons 7) (sh_fmt t')
        else if d =? 98 then option_map (cons 8) (sh_fmt t')
        else if d =? 102 then option_map (cons 12) (sh_fmt t')
        else if d =? 110 then option_map (cons 10) (sh_fmt t')
        else if d =? 114 then option_map (cons 13) (sh_fmt t')
        else if d =? 116 then option_map (cons 9) (sh_fmt t')
        else if d =? 118 then option_map (cons 11) (sh_fmt t')
        else if isoct d then
          match t' with
          | e :: t2 =>
            if isoct e then
              match t2 with
              | f :: t3 =>
                if isoct f then option_map (cons (((d - 48) * 64 + (e - 48) * 8 + (f - 48)) mod 256)) (sh_fmt t3)
                else option_map (cons ((d - 48) * 8 + (e - 48))) (sh_fmt t2)
              | [] => Some [(d - 48) * 8 + (e - 48)]
              end
            else option_map (cons (d - 48)) (sh_fmt t')
          | [] => Some [d - 48]
          end
        else None
      | [] => None
      end
    else option_map (cons c) (sh_fmt t)
  end.

(* ---- char_to_int (sh-runtime.c 111-275) ---- *)
(* __c2i_<c> variables, lines 114-175 *)
Definition c2i_table : list (Z * Z) :=
  [(48,48); (49,49); (50,50); (51,51); (52,52); (53,53); (54,54); (55,55); (56,56); (57,57); (97,97); (98,98); (99,99); (100,100); (101,101); (102,102); (103,103); (104,104); (105,105); (106,106); (107,107); (108,108); (109,109); (110,110); (111,111); (112,112); (113,113); (114,114); (115,115); (116,116); (117,117); (118,118); (119,119); (120,120); (121,121); (122,122); (65,65); (66,66); (67,67); (68,68); (69,69); (70,70); (71,71); (72,72); (73,73); (74,74); (75,75); (76,76); (77,77); (78,78); (79,79); (80,80); (81,81); (82,82); (83,83); (84,84); (85,85); (86,86); (87,87); (88,88); (89,89); (90,90)].
(* the same as case branches, lines 184-235 *)
Definition alpha_cases : list (Z * Z) :=
  [(97,97); (98,98); (99,99); (100,100); (101,101); (102,102); (103,103); (104,104); (105,105); (106,106); (107,107); (108,108); (109,109); (110,110); (111,111); (112,112); (113,113); (114,114); (115,115); (116,116); (117,117); (118,118); (119,119); (120,120); (121,121); (122,122); (65,65); (66,66); (67,67); (68,68); (69,69); (70,70); (71,71); (72,72); (73,73); (74,74); (75,75); (76,76); (77,77); (78,78); (79,79); (80,80); (81,81); (82,82); (83,83); (84,84); (85,85); (86,86); (87,87); (88,88); (89,89); (90,90)].
(* lines 237-269 *)
Definition punct_cases : list (Z * Z) :=
  [(32,32); (33,33); (34,34); (35,35); (36,36); (37,37); (38,38); (39,39); (40,40); (41,41); (42,42); (43,43); (44,44); (45,45); (46,46); (47,47); (58,58); (59,59); (60,60); (61,61); (62,62); (63,63); (64,64); (91,91); (92,92); (93,93); (94,94); (95,95); (96,96); (123,123); (124,124); (125,125); (126,126)].
(* extract_first_char_fast, lines 30-49 *)
Definition fast_cases : list (Z * Z) :=
  [(32,32); (101,101); (61,61); (116,116); (59,59); (105,105); (41,41); (40,40); (110,110); (115,115); (108,108); (43,43); (112,112); (97,97); (114,114); (102,102); (100,100); (42,42)].
Fixpoint assoc (c : Z) (t : list (Z * Z)) : option Z :=
  match t with [] => None | (k, v) :: t => if c =? k then Some v else assoc c t end.

Definition isalnum (c : Z) : bool :=
  ((48 <=? c) && (c <=? 57)) || ((65 <=? c) && (c <=? 90)) || ((97 <=? c) && (c <=? 122)).

(* The shell's own  printf "%d" "'c" : the code of the character; shells differ
   on the sign for bytes above 127 ([sg]); 0 for an empty argument. *)
Definition sh_ord (sg : bool) (c : option Z) : Z :=
  match c with None => 0 | Some c => if sg && (128 <=? c) then c - 256 else c end.

Section Chars.
Variable sg : bool.      (* shell: is %d of a high byte negative? *)
Variable lookup : bool.  (* RT_USE_LOOKUP_TABLE *)
Variable compact : bool. (* RT_COMPACT *)
Variable long : bool.    (* OPTIMIZE_LONG_LINES *)

(* __c=$(printf "%d" "'$1"); __c=$((__c > 0 ? __c : 256 + __c))   (lines 19, 271) *)
Definition by_printf (c : option Z) : Z :=
  let v := sh_ord sg c in if 0 <? v then v else 256 + v.

Definition char_to_int (c : option Z) : Z :=
  if compact then by_printf c else
  match c with
  | None => by_printf None
  | Some b =>
    let rest := match assoc b punct_cases with Some v => v | None => by_printf c end in
    if lookup then
      (if isalnum b then match assoc b c2i_table with Some v => v | None => 0 end else rest)
    else
      (if (48 <=? b) && (b <=? 57) then 48 + (b - 48)
       else match assoc b alpha_cases with Some v => v | None => rest end)
  end.

(* extract_first_char (lines 27-64): the number of the first character of a
   buffer (of an empty one: what char_to_int says of an empty argument). *)
Definition first_char (buf : list Z) : Z :=
  if compact then char_to_int (hd_error buf)
  else match buf with
       | [] => char_to_int None
       | b :: _ => match assoc b fast_cases with Some v => v | None => char_to_int (Some b) end
       end.

(* extract_line_head (lines 69-80): (small, big, was the else branch taken) *)
Definition line_head (n : nat) (small big : list Z) : list Z * list Z * bool :=
  match small with
  | _ :: _ => (small, big, false)
  | [] => if (n <=? length big)%nat then (firstn n big, skipn n big, false)
          else (big, [], true)
  end.

(* ---- unpack_escaped_string (lines 413-486) ---- *)

(* handle_escaped_chars after the backslash (lines 419-433) *)
Definition escape_code (c : Z) : option Z :=
  if c =? 48 then Some 0 else if c =? 97 then Some 7 else if c =? 98 then Some 8
  else if c =? 102 then Some 12 else if c =? 110 then Some 10 else if c =? 114 then Some 13
  else if c =? 116 then Some 9 else if c =? 118 then Some 11 else if c =? 92 then Some 92
  else if c =? 34 then Some 34 else if c =? 39 then Some 39 else if c =? 63 then Some 63
  else if c =? 36 then Some 36 else None.

(* the simple loop (lines 475-480): None = "invalid escape in string" and exit *)
Fixpoint unpack_simple (l : list Z) : option (list Z) :=
  match l with
  | [] => Some []
  | c :: t =>
    if c =? 92 then
      match t with
      | d :: t' => match escape_code d with
                   | Some v => option_map (cons v) (unpack_simple t')
                   | None => None end
      | [] => None
      end
    else option_map (cons (char_to_int (Some c))) (unpack_simple t)
  end.

(* next_sub_buffer (lines 452-455) on (__us_buf16, __us_buf256, __str) *)
Definition next_sub_buffer (st : list Z * list Z * list Z) : list Z * list Z * list Z :=
  let '(b16, b256, str) := st in
  let '(b256, str, _) := line_head 256 b256 str in
  let '(b16, b256, _) := line_head 16 b16 b256 in
  (b16, b256, str).

(* the buffered loops (lines 464-473); [fuel] bounds the number of iterations *)
Fixpoint unpack_long (fuel : nat) (inner : bool) (st : list Z * list Z * list Z) : option (list Z) :=
  match fuel with
  | O => None
  | S fuel =>
    if inner then
      let '(b16, b256, str) := st in
      match b16 with
      | [] => unpack_long fuel false st
      | c :: t =>
        if c =? 92 then
          let '(b16', b256', str') :=
            match t with [] => next_sub_buffer ([], b256, str) | _ => (t, b256, str) end in
          match b16' with
          | d :: t' => match escape_code d with
                       | Some v => option_map (cons v) (unpack_long fuel true (t', b256', str'))
                       | None => None end
          | [] => None
          end
        else option_map (cons (char_to_int (Some c))) (unpack_long fuel true (t, b256, str))
      end
    else
      let '(b16, b256, str) := st in
      match str, b256 with
      | [], [] => Some []
      | _, _ => unpack_long fuel true (next_sub_buffer st)
      end
  end.

Definition unpack_escaped (l : list Z) : option (list Z) :=
  if long then unpack_long (4 * length l + 4) false ([], [], l) else unpack_simple l.
End Chars.

(* ---- output ---- *)
(* decimal text of an arithmetic expansion *)
Fixpoint udec (fuel : nat) (n : Z) : list Z :=
  match fuel with
  | O => []
  | S f => if n <? 10 then [48 + n] else udec f (n / 10) ++ [48 + n mod 10]
  end.
Definition dec (n : Z) : list Z :=
  if n <? 0 then 45 :: udec (S (Z.to_nat (Z.log2 (- n)))) (- n)
  else udec (S (Z.to_nat (Z.log2 n))) n.
(* printf \\$((c/64))$((c/8%8))$((c%8))   (sh.c 1546-1552, sh-runtime.c 517, 583):
   the word after removal of the quoting backslash; shell division truncates. *)
Definition octal_word (c : Z) : list Z :=
  92 :: dec (Z.quot c 64) ++ dec (Z.rem (Z.quot c 8) 8) ++ dec (Z.rem c 8).
(* sh.c 1530-1535: printable characters are written in the format *)
Definition putchar_literal (c : Z) : option (list Z) :=
  if (32 <=? c) && (c <=? 126) then Some (print_escaped_char c true) else None.
