(** * Tokens of the source text: model of get_tok (pnut.c:2022-2460) and C's lexical rules

    The model: the main loop of get_tok outside directives and macros (macro_tok_lst = 0, macro_stack_ix = 0,
    if_macro_mask, skip_newlines), in the default build.  A line that starts with a number sign ends the
    modelled run ([RDir]); identifiers are given by their spelling; number, character and string literals are
    read by the functions of Literals.v (pnut.c:2149-2231), which C01-C05 are about. *)
From Coq Require Import ZArith List Lia Bool.
From Verif Require Import Base Numerals Output U64 Literals Ast.
Import ListNotations.
Open Scope Z_scope.
Local Notation length := List.length.

Inductive ltok := LOp (t : Z) | LId (n : list Z) | LNum (k : numtok) (v : Z) | LChr (v : Z) | LStr (l : list Z).
Inductive outcome := RTok (t : ltok) (rest : list Z) | REof | RErr | RDir | RFuel.

(** The character [ch]; EOF is -1. *)
Definition peek (inp : list Z) : Z := match inp with c :: _ => c | [] => -1 end.
Definition next (inp : list Z) : list Z := tl inp.
Definition is_letter (c : Z) : bool := ((97 <=? c) && (c <=? 122)) || ((65 <=? c) && (c <=? 90)) || (c =? 95).
Definition is_idchar (c : Z) : bool := is_letter c || ((48 <=? c) && (c <=? 57)).
Definition is_white (c : Z) : bool := (0 <=? c) && (c <=? 32).

(** pnut.c:1555-1569 [get_ident]: the spelling. *)
Fixpoint get_ident (inp : list Z) : list Z * list Z :=
  match inp with
  | c :: r => if is_idchar c then let '(n, r') := get_ident r in (c :: n, r') else ([], inp)
  | [] => ([], [])
  end.
(** pnut.c:2108-2111: white space; the flag is tok == '\n'. *)
Fixpoint skip_white (inp : list Z) (nl : bool) : list Z * bool :=
  match inp with
  | c :: r => if is_white c then skip_white r (if c =? 10 then true else nl) else (inp, nl)
  | [] => ([], nl)
  end.
(** pnut.c:2262-2270: block comment; [prev] is tok. None: unterminated. *)
Fixpoint skip_block (prev : Z) (inp : list Z) : option (list Z) :=
  match inp with
  | [] => None
  | c :: r => if (prev =? 42) && (c =? 47) then Some r else skip_block c r
  end.
(** pnut.c:2273-2275: line comment. *)
Fixpoint skip_line (inp : list Z) : list Z :=
  match inp with
  | c :: r => if c =? 10 then inp else skip_line r
  | [] => []
  end.

(** pnut.c:2283-2440: operators; [c] is the first character, [r] what follows. *)
Definition opt2 (c : Z) (r : list Z) (alts : list (Z * Z)) : option (Z * list Z) :=
  match find (fun a => fst a =? peek r) alts with Some (_, t) => Some (t, next r) | None => Some (c, r) end.
Definition get_op_tok (c : Z) (r : list Z) : option (Z * list Z) :=
  if c =? 47 then opt2 c r [(61, SLASH_EQ)]
  else if c =? 38 then opt2 c r [(38, AMP_AMP); (61, AMP_EQ)]
  else if c =? 124 then opt2 c r [(124, BAR_BAR); (61, BAR_EQ)]
  else if c =? 60 then
    if peek r =? 61 then Some (LT_EQ, next r)
    else if peek r =? 60 then
      let r2 := next r in if peek r2 =? 61 then Some (LSHIFT_EQ, next r2) else Some (LSHIFT, r2)
    else Some (c, r)
  else if c =? 62 then
    if peek r =? 61 then Some (GT_EQ, next r)
    else if peek r =? 62 then
      let r2 := next r in if peek r2 =? 61 then Some (RSHIFT_EQ, next r2) else Some (RSHIFT, r2)
    else Some (c, r)
  else if c =? 61 then opt2 c r [(61, EQ_EQ)]
  else if c =? 33 then opt2 c r [(61, EXCL_EQ)]
  else if c =? 43 then opt2 c r [(61, PLUS_EQ); (43, PLUS_PLUS)]
  else if c =? 45 then opt2 c r [(61, MINUS_EQ); (62, ARROW); (45, MINUS_MINUS)]
  else if c =? 42 then opt2 c r [(61, STAR_EQ)]
  else if c =? 37 then opt2 c r [(61, PERCENT_EQ)]
  else if c =? 94 then opt2 c r [(61, CARET_EQ)]
  else if c =? 35 then opt2 c r [(35, HASH_HASH)]
  else if c =? 46 then
    if peek r =? 46 then
      let r2 := next r in if peek r2 =? 46 then Some (ELLIPSIS, next r2) else None
    else Some (46, r)
  else if existsb (Z.eqb c) [126; 63; 44; 58; 59; 40; 41; 91; 93; 123; 125] then Some (c, r)
  else None.

(** pnut.c:2042-2443: the loop. [nl]: tok == '\n'. *)
Fixpoint get_tok (fuel : nat) (nl : bool) (inp : list Z) : outcome :=
  match fuel with
  | O => RFuel
  | S f =>
      match inp with
      | [] => REof
      | ch :: r =>
          if ch <=? 32 then
            if ch <? 0 then RErr
            else let '(inp', nl') := skip_white inp false in get_tok f nl' inp'
          else if nl && (ch =? 35) then RDir
          else if is_letter ch then let '(n, r') := get_ident inp in RTok (LId n) r'
          else if (48 <=? ch) && (ch <=? 57) then
            match scan_number32 true inp with Some (k, v, r') => RTok (LNum k v) r' | None => RErr end
          else if ch =? 39 then
            match char_literal r with Some (v, r') => RTok (LChr v) r' | None => RErr end
          else if ch =? 34 then
            match accum_string_until 34 r with Some (bs, r') => RTok (LStr bs) r' | None => RErr end
          else if (ch =? 47) && (peek r =? 42) then
            match next r with
            | [] => RErr
            | c :: _ => match skip_block c (next (next r)) with Some r' => get_tok f false r' | None => RErr end
            end
          else if (ch =? 47) && (peek r =? 47) then get_tok f false (skip_line r)
          else if ch =? 92 then
            if peek r =? 10 then get_tok f false (next r) else RErr
          else match get_op_tok ch r with Some (t, r') => RTok (LOp t) r' | None => RErr end
      end
  end.
(** The sequence of tokens get_tok gives until EOF; [None] if it stops on an error or a directive. *)
Fixpoint tokens_go (fuel : nat) (nl : bool) (inp : list Z) : option (list ltok) :=
  match fuel with
  | O => None
  | S f =>
      match get_tok (S (length inp)) nl inp with
      | RTok t r => match tokens_go f false r with Some ts => Some (t :: ts) | None => None end
      | REof => Some []
      | _ => None
      end
  end.
Definition tokens (nl : bool) (inp : list Z) : option (list ltok) := tokens_go (S (length inp)) nl inp.
(** pnut.c:4076 (and 849, 944-958 for included files): reading a file starts with [ch] a line break. *)
Definition file_tokens (file : list Z) : option (list ltok) := tokens false (10 :: file).

(** ** C11 6.4: specification *)
(* 6.4.6: the punctuators of the supported set (all but digraphs) *)
Definition puncts : list (list Z * Z) :=
  [ ([91], 91); ([93], 93); ([40], 40); ([41], 41); ([123], 123); ([125], 125); ([46], 46); ([45; 62], ARROW);
    ([43; 43], PLUS_PLUS); ([45; 45], MINUS_MINUS); ([38], 38); ([42], 42); ([43], 43); ([45], 45); ([126], 126); ([33], 33);
    ([47], 47); ([37], 37); ([60; 60], LSHIFT); ([62; 62], RSHIFT); ([60], 60); ([62], 62); ([60; 61], LT_EQ); ([62; 61], GT_EQ);
    ([61; 61], EQ_EQ); ([33; 61], EXCL_EQ); ([94], 94); ([124], 124); ([38; 38], AMP_AMP); ([124; 124], BAR_BAR);
    ([63], 63); ([58], 58); ([59], 59); ([46; 46; 46], ELLIPSIS); ([61], 61); ([42; 61], STAR_EQ); ([47; 61], SLASH_EQ);
    ([37; 61], PERCENT_EQ); ([43; 61], PLUS_EQ); ([45; 61], MINUS_EQ); ([60; 60; 61], LSHIFT_EQ); ([62; 62; 61], RSHIFT_EQ);
    ([38; 61], AMP_EQ); ([94; 61], CARET_EQ); ([124; 61], BAR_EQ); ([44], 44); ([35], 35); ([35; 35], HASH_HASH) ].
Definition begins (p s : list Z) : Prop := exists r, s = p ++ r.
(* 6.4p4: the longest *)
Definition longest_punct (s : list Z) (op : Z) (rest : list Z) : Prop :=
  exists p, In (p, op) puncts /\ s = p ++ rest /\
    forall p' op', In (p', op') puncts -> begins p' s -> (length p' <= length p)%nat.
(* 6.4.9, 6.4p3, 5.1.1.2: comments, white space, and a backslash that joins lines; the flag: a line ended *)
Definition contains (p s : list Z) : Prop := exists a b, s = a ++ p ++ b.
Inductive blank : list Z -> bool -> list Z -> Prop :=
| bl_white w r : w <> [] -> forallb is_white w = true -> match r with c :: _ => is_white c = false | [] => True end ->
    blank (w ++ r) (existsb (Z.eqb 10) w) r
| bl_line b r : ~ In 10 b -> match r with c :: _ => c = 10 | [] => True end -> blank ([47; 47] ++ b ++ r) false r
| bl_block b r : ~ contains [42; 47] b -> blank ([47; 42] ++ b ++ [42; 47] ++ r) false r
| bl_join r : blank ([92; 10] ++ r) false r.
(* [nl]: nothing but white space and comments since the line started; there a number sign starts a directive (6.10p2) *)
Inductive lexes : bool -> list Z -> list ltok -> Prop :=
| lx_end nl : lexes nl [] []
| lx_blank nl s brk r ts : blank s brk r -> lexes (nl || brk) r ts -> lexes nl s ts
| lx_op nl s op r ts : longest_punct s op r -> ~ begins [47; 47] s -> ~ begins [47; 42] s -> (nl = true -> ~ begins [35] s) ->
    lexes false r ts -> lexes nl s (LOp op :: ts)
| lx_id nl n r ts : n <> [] -> match n with c :: _ => is_letter c = true | [] => True end -> forallb is_idchar n = true ->
    match r with c :: _ => is_idchar c = false | [] => True end -> lexes false r ts -> lexes nl (n ++ r) (LId n :: ts)
| lx_num nl s k v r ts : 48 <= peek s <= 57 -> scan_number32 true s = Some (k, v, r) -> lexes false r ts -> lexes nl s (LNum k v :: ts)
| lx_chr nl s v r ts : char_literal s = Some (v, r) -> lexes false r ts -> lexes nl (39 :: s) (LChr v :: ts)
| lx_str nl s l r ts : accum_string_until 34 s = Some (l, r) -> lexes false r ts -> lexes nl (34 :: s) (LStr l :: ts).
(* no two dots in a row *)
Fixpoint no_dots (ts : list ltok) : Prop :=
  match ts with
  | LOp a :: ((LOp b :: _) as r) => ~ (a = 46 /\ b = 46) /\ no_dots r
  | _ :: r => no_dots r
  | [] => True
  end.
(* no number sign *)
Definition no_hash (ts : list ltok) : Prop := forall t, In t ts -> t <> LOp 35 /\ t <> LOp HASH_HASH.
