(** * Integer, character and string literals: pnut.c accum_digit, get_string_char,
      accum_string_until and the literal cases of get_tok; token pasting of integers *)
From Coq Require Import ZArith List Lia Bool.
From Verif Require Import Base Numerals Output U64.
Import ListNotations.
Open Scope Z_scope.

(** The input is the list of remaining characters; [ch] is its head (EOF = empty list).
    [get_ch] drops the head. *)

(** pnut.c:1020-1028, the digit computed by [accum_digit] (99 when [ch] is no digit). *)
Definition pdigit (c : Z) : Z :=
  if (48 <=? c) && (c <=? 57) then c - 48
  else if (65 <=? c) && (c <=? 90) then c - 65 + 10
  else if (97 <=? c) && (c <=? 122) then c - 97 + 10
  else 99.

(** The accumulator update of [accum_digit] (pnut.c:1036-1041) in the two builds.
    [step32]: [val = val * base - digit] on a 32-bit int; [None] is the signed overflow C
    leaves undefined.  [step64]: the two-word accumulator. *)
Definition step32 (base v d : Z) : option Z :=
  if in_intb (v * base) && in_intb (v * base - d) then Some (v * base - d) else None.
Definition step64 (base : Z) (x : Z * Z) (d : Z) : option (Z * Z) := Some (accum64 base x d).

Section Scan.
  Context {S : Type} (step : Z -> S -> Z -> option S).

  (** pnut.c:1019-1047 [accum_digit]: [Some (Some (st, rest))] = digit consumed (returns 1),
      [Some None] = not a digit (returns 0), [None] = undefined behaviour. *)
  Definition accum_digit (base : Z) (st : S) (inp : list Z) : option (option (S * list Z)) :=
    match inp with
    | [] => Some None
    | c :: r => if base <=? pdigit c then Some None
                else match step base st (pdigit c) with
                     | Some st' => Some (Some (st', r))
                     | None => None
                     end
    end.

  (** [while (accum_digit(base));] *)
  Fixpoint accum_while (base : Z) (st : S) (inp : list Z) : option (S * list Z) :=
    match inp with
    | [] => Some (st, [])
    | c :: r => if base <=? pdigit c then Some (st, inp)
                else match step base st (pdigit c) with
                     | Some st' => accum_while base st' r
                     | None => None
                     end
    end.
End Scan.

Inductive numtok := INTEGER | INTEGER_HEX | INTEGER_OCT
                  | INTEGER_L | INTEGER_LL | INTEGER_U | INTEGER_UL | INTEGER_ULL.

(** pnut.c:2149-2182, the literal case of get_tok without suffix.  [zero] is the initial
    accumulator (INIT_ACCUM_DIGIT), [is_zero] the test used for INTEGER_OCT;
    [with_base] says whether PARSE_NUMERIC_LITERAL_WITH_BASE is on (shell back end).
    [None] = syntax error or undefined behaviour. *)
Definition scan_number {S} (with_base : bool) (step : Z -> S -> Z -> option S)
    (zero : S) (is_zero : S -> bool) (inp : list Z) : option (numtok * S * list Z) :=
  match inp with
  | 48 :: r =>
      match r with
      | x :: r' =>
          if (x =? 120) || (x =? 88) then
            match accum_digit step 16 zero r' with
            | Some (Some (st, r'')) =>
                match accum_while step 16 st r'' with
                | Some (st', rest) => Some (if with_base then INTEGER_HEX else INTEGER, st', rest)
                | None => None
                end
            | _ => None
            end
          else
            match accum_while step 8 zero r with
            | Some (st, rest) =>
                Some (if with_base && negb (is_zero st) then INTEGER_OCT else INTEGER, st, rest)
            | None => None
            end
      | [] => Some (INTEGER, zero, [])
      end
  | _ => match accum_while step 10 zero inp with
         | Some (st, rest) => Some (INTEGER, st, rest)
         | None => None
         end
  end.

Definition scan_number32 with_base := scan_number with_base step32 0 (fun v => v =? 0).
Definition scan_number64 with_base :=
  scan_number with_base step64 (0, 0) (fun x => (fst x =? 0) && (snd x =? 0)).

(** pnut.c:2184-2210, suffix parsing (native back ends). *)
Definition is_u (c : Z) : bool := (c =? 117) || (c =? 85).
Definition is_l (c : Z) : bool := (c =? 108) || (c =? 76).
Definition scan_suffix (tok : numtok) (inp : list Z) : numtok * list Z :=
  match inp with
  | c :: r =>
      if is_u c then
        match r with
        | c1 :: r1 =>
            if is_l c1 then
              match r1 with
              | c2 :: r2 => if is_l c2 then (INTEGER_ULL, r2) else (INTEGER_UL, r1)
              | [] => (INTEGER_UL, [])
              end
            else (INTEGER_U, r)
        | [] => (INTEGER_U, [])
        end
      else if is_l c then
        let '(t1, r1) := match r with
                         | c1 :: r1 => if is_l c1 then (INTEGER_LL, r1) else (INTEGER_L, r)
                         | [] => (INTEGER_L, [])
                         end in
        match r1 with
        | c2 :: r2 => if is_u c2
                      then (match t1 with INTEGER_LL => INTEGER_ULL | _ => INTEGER_UL end, r2)
                      else (t1, r1)
        | [] => (t1, [])
        end
      else (tok, inp)
  | [] => (tok, [])
  end.

(** pnut.c:1049-1094 [get_string_char], 32-bit build ([DIGIT_BYTE] = [-val % 256]).
    Returns the character value and the remaining input; [None] = syntax error (or EOF reached
    where a character is needed: C reads [ch = -1], which no escape accepts). *)
Definition get_string_char (inp : list Z) : option (Z * list Z) :=
  match inp with
  | [] => None
  | c :: r =>
      if negb (c =? 92) then Some (c, r)
      else match r with
      | [] => None
      | e :: r1 =>
          if (48 <=? e) && (e <=? 55) then
            match accum_digit step32 8 0 r with
            | Some (Some (v1, t1)) =>
                match accum_digit step32 8 v1 t1 with
                | Some (Some (v2, t2)) =>
                    match accum_digit step32 8 v2 t2 with
                    | Some (Some (v3, t3)) => Some (Z.rem (- v3) 256, t3)
                    | Some None => Some (Z.rem (- v2) 256, t2)
                    | None => None
                    end
                | Some None => Some (Z.rem (- v1) 256, t1)
                | None => None
                end
            | _ => None
            end
          else if (e =? 120) || (e =? 88) then
            match accum_digit step32 16 0 r1 with
            | Some (Some (v1, t1)) =>
                match accum_digit step32 16 v1 t1 with
                | Some (Some (v2, t2)) => Some (Z.rem (- v2) 256, t2)
                | Some None => Some (Z.rem (- v1) 256, t1)
                | None => None
                end
            | _ => None
            end
          else if e =? 97 then Some (7, r1)
          else if e =? 98 then Some (8, r1)
          else if e =? 102 then Some (12, r1)
          else if e =? 110 then Some (10, r1)
          else if e =? 114 then Some (13, r1)
          else if e =? 116 then Some (9, r1)
          else if e =? 118 then Some (11, r1)
          else if (e =? 92) || (e =? 39) || (e =? 34) then Some (e, r1)
          else None
      end
  end.

(** pnut.c:1096-1111 [accum_string_until]: the bytes accumulated and the input after the
    closing delimiter.  Every iteration consumes a character, so [length inp] bounds it. *)
Fixpoint accum_string_until_go (fuel : nat) (e : Z) (inp : list Z) : option (list Z * list Z) :=
  match inp with
  | [] => None  (* "unterminated string literal" *)
  | c :: r =>
      if c =? e then Some ([], r)
      else match fuel with
           | O => None
           | S f => match get_string_char inp with
                    | Some (v, rest) =>
                        match accum_string_until_go f e rest with
                        | Some (bs, rest') => Some (v :: bs, rest')
                        | None => None
                        end
                    | None => None
                    end
           end
  end.
Definition accum_string_until (e : Z) (inp : list Z) := accum_string_until_go (length inp) e inp.

(** pnut.c:2219-2231, character literal (input after the opening quote). *)
Definition char_literal (inp : list Z) : option (Z * list Z) :=
  match get_string_char inp with
  | Some (v, 39 :: r) => Some (v, r)
  | _ => None
  end.

(** pnut.c:1929-1941 [paste_integers]; the loop runs once per decimal digit. *)
Fixpoint paste_loop (fuel : nat) (result right_digits : Z) : option Z :=
  if 0 <? right_digits then
    match fuel with
    | O => None
    | S f => paste_loop f (result * 10) (Z.quot right_digits 10)
    end
  else Some result.
Definition paste_integers (left_val right_val : Z) : option Z :=
  match paste_loop 10 left_val right_val with
  | Some r => let res := r + right_val in if in_intb r && in_intb res then Some res else None
  | None => None
  end.

(** ** Specification of escapes (C17 6.4.4.4), independent of the scanner *)

(** [no_more b rest]: the text does not continue with a digit of base [b]. *)
Definition no_more (b : Z) (rest : list Z) : Prop :=
  match rest with [] => True | c :: _ => is_digitb b c = false end.

(** simple escapes: letter, value *)
Definition simple_escapes : list (Z * Z) :=
  [(97, 7); (98, 8); (102, 12); (110, 10); (114, 13); (116, 9); (118, 11);
   (92, 92); (39, 39); (34, 34)].

(** [escape txt v rest]: with [rest] following, the C escape spelled [txt] has value [v]. *)
Inductive escape : list Z -> Z -> list Z -> Prop :=
| esc_simple : forall c v rest, In (c, v) simple_escapes -> escape [92; c] v rest
| esc_octal : forall ds v rest,
    numeral_value 8 ds = Some v -> (length ds <= 3)%nat ->
    ((length ds < 3)%nat -> no_more 8 rest) ->
    escape (92 :: ds) (v mod 256) rest
| esc_hex : forall x ds v rest, x = 120 \/ x = 88 ->
    numeral_value 16 ds = Some v -> (length ds <= 2)%nat -> no_more 16 rest ->
    escape (92 :: x :: ds) v rest.

(** Body of a literal delimited by [q]: text and the bytes it denotes. *)
Inductive lit_body (q : Z) : list Z -> list Z -> list Z -> Prop :=
| lit_nil : forall rest, lit_body q [] [] rest
| lit_plain : forall c s bs rest, c <> q -> c <> 92 ->
    lit_body q s bs rest -> lit_body q (c :: s) (c :: bs) rest
| lit_esc : forall e v s bs rest, escape e v (s ++ q :: rest) ->
    lit_body q s bs rest -> lit_body q (e ++ s) (v :: bs) rest.

(** ** Proofs *)
Lemma pdigit_digit_of c b d : digit_of c = Some d -> 0 <= d < b -> b <= 36 -> pdigit c = d.
Proof.
  unfold digit_of, pdigit. intros H _ _.
  destruct ((48 <=? c) && (c <=? 57)); [injection H; lia|].
  destruct ((65 <=? c) && (c <=? 90)); [injection H; lia|].
  destruct ((97 <=? c) && (c <=? 122)); [injection H; lia|discriminate].
Qed.

Lemma pdigit_no b c : b <= 36 -> is_digitb b c = false -> b <= pdigit c.
Proof.
  unfold is_digitb, digit_of, pdigit. intros Hb H.
  destruct ((48 <=? c) && (c <=? 57)); [apply Z.ltb_ge in H; lia|].
  destruct ((65 <=? c) && (c <=? 90)); [apply Z.ltb_ge in H; lia|].
  destruct ((97 <=? c) && (c <=? 122)); [apply Z.ltb_ge in H; lia|lia].
Qed.

Lemma accum_while_ok32 b ds rest : 2 <= b <= 36 -> forall acc v,
  0 <= acc -> value_from b acc ds = Some v -> v <= 2147483648 -> no_more b rest ->
  accum_while step32 b (- acc) (ds ++ rest) = Some (- v, rest).
Proof.
  intros Hb. induction ds as [|c r IH]; intros acc v Hacc Hv Hle Hn.
  - cbn in Hv. injection Hv as <-. cbn [app].
    destruct rest as [|c r]; [reflexivity|]. cbn [accum_while].
    cbn in Hn. apply pdigit_no in Hn; [|lia]. destruct (Z.leb_spec b (pdigit c)); [reflexivity|lia].
  - cbn [value_from] in Hv. destruct (digit_of c) as [d|] eqn:Ed; [|discriminate].
    destruct (Z.ltb_spec d b); [|discriminate].
    apply digit_of_nonneg in Ed as Hd0.
    cbn [app accum_while]. rewrite (pdigit_digit_of c b d) by (auto; lia).
    destruct (Z.leb_spec b d); [lia|].
    assert (0 <= acc * b) by (apply Z.mul_nonneg_nonneg; lia).
    pose proof (value_from_lb b r ltac:(lia) (acc * b + d) v ltac:(lia) Hv) as Hlb.
    unfold step32. replace (- acc * b - d) with (- (acc * b + d)) by ring.
    replace (in_intb (- acc * b)) with true
      by (symmetry; apply in_intb_spec; unfold int_range; lia).
    replace (in_intb (- (acc * b + d))) with true
      by (symmetry; apply in_intb_spec; unfold int_range; lia).
    cbn [andb]. apply IH; auto; lia.
Qed.

Lemma digit_not_zero_head ds v : numeral_value 10 ds = Some v ->
  exists c r, ds = c :: r /\ 48 <= c <= 57.
Proof.
  destruct ds as [|c r]; [discriminate|]. cbn. intros H.
  exists c, r. split; [reflexivity|].
  destruct (digit_of c) as [d|] eqn:E; [|discriminate].
  destruct (d <? 10) eqn:E2; [|discriminate]. apply Z.ltb_lt in E2.
  unfold digit_of in E.
  destruct ((48 <=? c) && (c <=? 57)) eqn:E3; [apply andb_true_iff in E3; lia|].
  destruct ((65 <=? c) && (c <=? 90)) eqn:E4; [injection E; lia|].
  destruct ((97 <=? c) && (c <=? 122)) eqn:E5; [injection E; lia|discriminate].
Qed.

Lemma scan_number_dec {S} wb (step : Z -> S -> Z -> option S) z iz inp c r :
  inp = c :: r -> c <> 48 ->
  scan_number wb step z iz inp =
  match accum_while step 10 z inp with
  | Some (st, rest) => Some (INTEGER, st, rest)
  | None => None
  end.
Proof.
  intros -> H. unfold scan_number.
  destruct c as [|p|p]; try reflexivity.
  do 6 (destruct p as [p|p|]; try reflexivity). congruence.
Qed.

Lemma scan_decimal32 wb ds v rest :
  denotes 10 ds v -> 0 < v <= 2147483648 -> no_more 10 rest ->
  scan_number32 wb (ds ++ rest) = Some (INTEGER, - v, rest).
Proof.
  intros [Hv Hc] Hr Hn.
  destruct (digit_not_zero_head _ _ Hv) as (c & r & -> & Hcr).
  assert (c <> 48).
  { intros ->. destruct Hc as [Hc|(c1 & r1 & Hc & Hne)]; [|injection Hc; congruence].
    injection Hc as ->. cbn in Hv. injection Hv. lia. }
  unfold scan_number32. rewrite (scan_number_dec _ _ _ _ _ c (r ++ rest)) by auto.
  change 0 with (- 0). rewrite (accum_while_ok32 10 (c :: r) rest ltac:(lia) 0 v); auto; lia.
Qed.

Lemma scan_octal32 wb ds v rest :
  value_from 8 0 ds = Some v -> v <= 2147483648 -> no_more 8 rest ->
  (ds = [] -> match rest with x :: _ => x <> 120 /\ x <> 88 | [] => True end) ->
  scan_number32 wb (48 :: ds ++ rest) =
    Some (if wb && negb (v =? 0) then INTEGER_OCT else INTEGER, - v, rest).
Proof.
  intros Hv Hr Hn Hx.
  assert (W : accum_while step32 8 0 (ds ++ rest) = Some (- v, rest)).
  { change 0 with (- 0). apply accum_while_ok32; auto; lia. }
  unfold scan_number32, scan_number.
  destruct (ds ++ rest) as [|x r'] eqn:E.
  - apply app_eq_nil in E as [-> ->]. cbn in Hv. injection Hv as <-. cbn. now rewrite andb_false_r.
  - assert (Hnx : (x =? 120) || (x =? 88) = false).
    { destruct ds as [|c ds'].
      - cbn in E. subst rest. specialize (Hx eq_refl). cbn in Hx.
        destruct (Z.eqb_spec x 120), (Z.eqb_spec x 88); tauto || lia.
      - injection E as -> <-. cbn in Hv. destruct (digit_of x) eqn:Ed; [|discriminate].
        destruct (z <? 8) eqn:E8; [|discriminate]. apply Z.ltb_lt in E8.
        destruct (Z.eqb_spec x 120) as [->|]; [cbv in Ed; injection Ed; lia|].
        destruct (Z.eqb_spec x 88) as [->|]; [cbv in Ed; injection Ed; lia|]. reflexivity. }
    rewrite Hnx, W. do 3 f_equal.
    destruct (Z.eqb_spec v 0), (Z.eqb_spec (- v) 0); try lia; reflexivity.
Qed.

Lemma scan_hex32 wb x ds v rest :
  x = 120 \/ x = 88 ->
  numeral_value 16 ds = Some v -> v <= 2147483648 -> no_more 16 rest ->
  scan_number32 wb (48 :: x :: ds ++ rest) =
    Some (if wb then INTEGER_HEX else INTEGER, - v, rest).
Proof.
  intros Hx Hv Hr Hn. destruct ds as [|c r]; [discriminate|].
  pose proof (accum_while_ok32 16 (c :: r) rest ltac:(lia) 0 v ltac:(lia) Hv Hr Hn) as W.
  unfold scan_number32, scan_number.
  replace ((x =? 120) || (x =? 88)) with true
    by (destruct Hx as [-> | ->]; reflexivity).
  cbn [app]. cbn [app accum_while] in W. change (- 0) with 0 in W. unfold accum_digit.
  destruct (Z.leb_spec 16 (pdigit c)) as [Hc|Hc].
  - cbn in Hv. destruct (digit_of c) as [d|] eqn:Ed; [|discriminate].
    destruct (Z.ltb_spec d 16); [|discriminate]. apply digit_of_nonneg in Ed as ?.
    rewrite (pdigit_digit_of c 16 d) in Hc by (auto; lia). lia.
  - destruct (step32 16 0 (pdigit c)) as [st|]; [|discriminate].
    destruct (accum_while step32 16 st (r ++ rest)) as [[st' rest']|]; [|discriminate].
    injection W as -> ->. reflexivity.
Qed.

(** 64-bit build *)
Lemma accum_while64 b ds rest : 2 <= b <= 36 -> no_more b rest ->
  forall x dv, map digit_of ds = map Some dv -> Forall (fun d => 0 <= d < b) dv ->
  accum_while step64 b x (ds ++ rest) = Some (accum64_all b x dv, rest).
Proof.
  intros Hb Hn. induction ds as [|c r IH]; intros x dv Hm Hf.
  - destruct dv; [|discriminate]. cbn [app accum64_all].
    destruct rest as [|c r]; [reflexivity|]. cbn [accum_while].
    apply pdigit_no in Hn; [|lia]. destruct (Z.leb_spec b (pdigit c)); [reflexivity|lia].
  - destruct dv as [|d dv]; [discriminate|]. cbn in Hm. injection Hm as Hd Hm.
    inversion Hf as [|? ? Hd' Hf']; subst.
    cbn [app accum_while accum64_all]. rewrite (pdigit_digit_of c b d) by (auto; lia).
    destruct (Z.leb_spec b d); [lia|]. cbn [step64]. unfold step64. apply IH; auto.
Qed.

Lemma value_digits b ds : forall acc v, value_from b acc ds = Some v ->
  exists dv, map digit_of ds = map Some dv /\ Forall (fun d => 0 <= d < b) dv /\
             v = digits_value b acc dv.
Proof.
  induction ds as [|c r IH]; intros acc v; cbn [value_from].
  - intros [= <-]. exists []. repeat split; constructor.
  - destruct (digit_of c) as [d|] eqn:Ed; [|discriminate].
    destruct (Z.ltb_spec d b); [|discriminate]. intros H0.
    apply digit_of_nonneg in Ed as ?.
    destruct (IH _ _ H0) as (dv & Hm & Hf & ->).
    exists (d :: dv). cbn [map]. rewrite Ed, Hm. repeat split; auto.
Qed.

(** The value a literal object denotes (specification). *)
Definition obj_value (o : lit_obj) : Z :=
  match o with SmallInt v => - v | LargeInt lo hi => words (lo, hi) end.

Lemma u64_to_obj_value x : wf_words x -> obj_value (u64_to_obj x) = words x.
Proof.
  destruct x as [x0 x1]. unfold u64_to_obj, wf_words, int_range, words. cbn [fst snd].
  intros [H0 H1]. destruct (Z.leb_spec 0 x0); cbn [andb]; [|reflexivity].
  destruct (Z.eqb_spec x1 0) as [->|]; [|reflexivity].
  cbn [obj_value]. rewrite u32_small by lia. unfold u32. rewrite Z.mod_0_l; lia.
Qed.

Lemma words_zero : wf_words (0, 0) /\ words (0, 0) = 0.
Proof. repeat split; cbn; unfold int_range; lia. Qed.

Lemma scan_hex64 wb x ds v rest :
  x = 120 \/ x = 88 -> numeral_value 16 ds = Some v -> no_more 16 rest ->
  exists w, scan_number64 wb (48 :: x :: ds ++ rest) =
              Some (if wb then INTEGER_HEX else INTEGER, w, rest) /\
            wf_words w /\ words w = v mod 18446744073709551616.
Proof.
  intros Hx Hv Hn. destruct ds as [|c r]; [discriminate|].
  destruct (value_digits 16 (c :: r) 0 v Hv) as (dv & Hm & Hf & ->).
  exists (accum64_all 16 (0, 0) dv).
  destruct (accum64_all_pow2 16 dv ltac:(auto) Hf (0, 0) (proj1 words_zero)) as [Hw E].
  split; [|split; [exact Hw|exact E]].
  pose proof (accum_while64 16 (c :: r) rest ltac:(lia) Hn (0, 0) dv Hm Hf) as W.
  unfold scan_number64, scan_number.
  replace ((x =? 120) || (x =? 88)) with true by (destruct Hx as [-> | ->]; reflexivity).
  cbn [app accum_while] in W. cbn [app]. unfold accum_digit.
  destruct (Z.leb_spec 16 (pdigit c)) as [Hc|Hc].
  - destruct dv as [|d dv]; [discriminate|]. cbn in Hm. injection Hm as Hd Hm.
    inversion Hf; subst. rewrite (pdigit_digit_of c 16 d) in Hc by (auto; lia). lia.
  - unfold step64 in *. rewrite W. reflexivity.
Qed.

Lemma scan_octal64 ds v rest :
  value_from 8 0 ds = Some v -> no_more 8 rest ->
  (ds = [] -> match rest with x :: _ => x <> 120 /\ x <> 88 | [] => True end) ->
  exists w, scan_number64 false (48 :: ds ++ rest) = Some (INTEGER, w, rest) /\
            wf_words w /\ words w = v mod 18446744073709551616.
Proof.
  intros Hv Hn Hx.
  destruct (value_digits 8 ds 0 v Hv) as (dv & Hm & Hf & ->).
  exists (accum64_all 8 (0, 0) dv).
  destruct (accum64_all_pow2 8 dv ltac:(auto) Hf (0, 0) (proj1 words_zero)) as [Hw E].
  split; [|split; [exact Hw|exact E]].
  pose proof (accum_while64 8 ds rest ltac:(lia) Hn (0, 0) dv Hm Hf) as W.
  unfold scan_number64, scan_number.
  destruct (ds ++ rest) as [|x r'] eqn:El.
  - apply app_eq_nil in El as [-> ->]. destruct dv; [reflexivity|discriminate].
  - assert (Hnx : (x =? 120) || (x =? 88) = false).
    { destruct ds as [|c ds'].
      - cbn in El. subst rest. specialize (Hx eq_refl). cbn in Hx.
        destruct (Z.eqb_spec x 120), (Z.eqb_spec x 88); tauto || lia.
      - injection El as -> <-. destruct dv as [|d dv]; [discriminate|].
        cbn in Hm. injection Hm as Hd Hm. inversion Hf; subst.
        destruct (Z.eqb_spec x 120) as [->|]; [cbv in Hd; injection Hd; lia|].
        destruct (Z.eqb_spec x 88) as [->|]; [cbv in Hd; injection Hd; lia|]. reflexivity. }
    rewrite Hnx, W. reflexivity.
Qed.

Lemma scan_decimal64 ds v rest :
  denotes 10 ds v -> 0 < v < 4294967296 -> v <> 2147483648 -> v <> 2147483649 ->
  no_more 10 rest ->
  exists w, scan_number64 false (ds ++ rest) = Some (INTEGER, w, rest) /\
            wf_words w /\ words w = v.
Proof.
  intros [Hv Hc] Hr N1 N2 Hn.
  destruct (digit_not_zero_head _ _ Hv) as (c & r & -> & Hcr).
  assert (c <> 48).
  { intros ->. destruct Hc as [Hc|(c1 & r1 & Hc & Hne)]; [|injection Hc; congruence].
    injection Hc as ->. cbn in Hv. injection Hv. lia. }
  destruct (value_digits 10 (c :: r) 0 v Hv) as (dv & Hm & Hf & ->).
  destruct (accum64_all_dec dv Hf (0, 0) (proj1 words_zero)) as [Hw E];
    try (rewrite (proj2 words_zero); lia).
  exists (accum64_all 10 (0, 0) dv). split; [|split; [exact Hw|exact E]].
  unfold scan_number64. rewrite (scan_number_dec _ _ _ _ _ c (r ++ rest)) by auto.
  rewrite (accum_while64 10 (c :: r) rest ltac:(lia) Hn (0, 0) dv Hm Hf). reflexivity.
Qed.

(** Suffixes *)
Definition suffix_letters (s : list Z) : list Z :=  (* lower-cased *)
  map (fun c => if (65 <=? c) && (c <=? 90) then c + 32 else c) s.
Definition suffix_table : list (list Z * numtok) :=
  [([117], INTEGER_U); ([117;108], INTEGER_UL); ([117;108;108], INTEGER_ULL);
   ([108], INTEGER_L); ([108;108], INTEGER_LL); ([108;117], INTEGER_UL);
   ([108;108;117], INTEGER_ULL)].
Definition no_suffix_letter (rest : list Z) : Prop :=
  match rest with [] => True | c :: _ => is_u c = false /\ is_l c = false end.

Lemma lower_u c : (if (65 <=? c) && (c <=? 90) then c + 32 else c) = 117 -> is_u c = true /\ is_l c = false.
Proof.
  unfold is_u, is_l. intros H.
  assert (c = 117 \/ c = 85) as [-> | ->]; [|auto|auto].
  destruct ((65 <=? c) && (c <=? 90)); lia.
Qed.
Lemma lower_l c : (if (65 <=? c) && (c <=? 90) then c + 32 else c) = 108 -> is_u c = false /\ is_l c = true.
Proof.
  unfold is_u, is_l. intros H.
  assert (c = 108 \/ c = 76) as [-> | ->]; [|auto|auto].
  destruct ((65 <=? c) && (c <=? 90)); lia.
Qed.

Lemma scan_suffix_ok tok s k rest :
  In (suffix_letters s, k) suffix_table -> no_suffix_letter rest ->
  scan_suffix tok (s ++ rest) = (k, rest).
Proof.
  intros Hin Hn. cbn in Hin.
  assert (Hr : forall c r, rest = c :: r -> is_u c = false /\ is_l c = false)
    by (intros c r ->; exact Hn).
  repeat destruct Hin as [Hin|Hin]; try contradiction;
  injection Hin as Hs <-; unfold suffix_letters in Hs;
  repeat match goal with
  | H : ?l = map _ ?s |- _ => destruct s as [|? ?]; cbn [map] in H; try discriminate H
  | H : _ :: _ = _ :: _ |- _ => injection H; clear H; intros
  end;
  repeat match goal with
  | H : 117 = _ |- _ => symmetry in H; apply lower_u in H; destruct H
  | H : 108 = _ |- _ => symmetry in H; apply lower_l in H; destruct H
  end;
  cbn [app scan_suffix];
  repeat match goal with
  | H : is_u _ = _ |- _ => rewrite H; clear H
  | H : is_l _ = _ |- _ => rewrite H; clear H
  end; cbn [app];
  destruct rest as [|c r]; try reflexivity;
  destruct (Hr c r eq_refl) as [E1 E2]; repeat (cbn; rewrite ?E1, ?E2); reflexivity.
Qed.

(** Escapes *)
Lemma accum_digit_ok32 b c r acc d : 2 <= b <= 16 -> 0 <= acc < 65536 ->
  digit_of c = Some d -> d < b ->
  accum_digit step32 b (- acc) (c :: r) = Some (Some (- (acc * b + d), r)).
Proof.
  intros Hb Ha Hd Hlt. apply digit_of_nonneg in Hd as ?.
  unfold accum_digit. rewrite (pdigit_digit_of c b d) by (auto; lia).
  destruct (Z.leb_spec b d); [lia|]. unfold step32.
  replace (- acc * b - d) with (- (acc * b + d)) by ring.
  assert (0 <= acc * b <= 65536 * 16) by nia.
  replace (in_intb (- acc * b)) with true
    by (symmetry; apply in_intb_spec; unfold int_range; lia).
  replace (in_intb (- (acc * b + d))) with true
    by (symmetry; apply in_intb_spec; unfold int_range; lia).
  reflexivity.
Qed.

Lemma accum_digit_no32 b v rest : b <= 36 -> no_more b rest -> accum_digit step32 b v rest = Some None.
Proof.
  intros Hb Hn. destruct rest as [|c r]; [reflexivity|]. unfold accum_digit.
  apply pdigit_no in Hn; [|lia]. destruct (Z.leb_spec b (pdigit c)); [reflexivity|lia].
Qed.

Lemma rem_mod256 v : 0 <= v -> Z.rem (- - v) 256 = v mod 256.
Proof. intros. rewrite Z.opp_involutive. apply Z.rem_mod_nonneg; lia. Qed.

Lemma octal_digit_char c d : digit_of c = Some d -> d < 8 -> (48 <=? c) && (c <=? 55) = true.
Proof.
  unfold digit_of. intros H Hd.
  destruct ((48 <=? c) && (c <=? 57)) eqn:E.
  - apply andb_true_iff in E. injection H as <-. apply andb_true_iff. lia.
  - destruct ((65 <=? c) && (c <=? 90)) eqn:E1; [injection H; lia|].
    destruct ((97 <=? c) && (c <=? 122)) eqn:E2; [injection H; lia|discriminate].
Qed.

Lemma vfrom1 b acc c v : value_from b acc [c] = Some v ->
  exists d, digit_of c = Some d /\ d < b /\ v = acc * b + d.
Proof.
  cbn. destruct (digit_of c) as [d|]; [|discriminate]. destruct (Z.ltb_spec d b); [|discriminate].
  intros [= <-]. eauto.
Qed.
Lemma vfrom_cons b acc c r v : value_from b acc (c :: r) = Some v ->
  exists d, digit_of c = Some d /\ d < b /\ value_from b (acc * b + d) r = Some v.
Proof.
  cbn. destruct (digit_of c) as [d|]; [|discriminate]. destruct (Z.ltb_spec d b); [|discriminate].
  eauto.
Qed.

Lemma get_string_char_escape e v rest :
  escape e v rest -> get_string_char (e ++ rest) = Some (v, rest).
Proof.
  destruct 1 as [c v rest Hin | ds v rest Hv Hl Hn | x ds v rest Hx Hv Hl Hn].
  - cbn in Hin. repeat destruct Hin as [Hin|Hin]; try contradiction; injection Hin as <- <-; reflexivity.
  - destruct ds as [|c1 r1]; [discriminate|]. unfold numeral_value in Hv.
    destruct (vfrom_cons _ _ _ _ _ Hv) as (d1 & E1 & L1 & Hv1).
    apply digit_of_nonneg in E1 as P1.
    cbn [app get_string_char]. change (negb (92 =? 92)) with false. cbn iota.
    rewrite (octal_digit_char c1 d1) by auto.
    change 0 with (- 0). rewrite (accum_digit_ok32 8 c1 _ 0 d1) by (auto; lia).
    destruct r1 as [|c2 r2].
    + cbn [value_from] in Hv1. injection Hv1 as <-. cbn [app].
      rewrite accum_digit_no32 by (try lia; apply Hn; cbn; lia).
      rewrite rem_mod256 by lia. reflexivity.
    + destruct (vfrom_cons _ _ _ _ _ Hv1) as (d2 & E2 & L2 & Hv2).
      apply digit_of_nonneg in E2 as P2.
      cbn [app]. rewrite (accum_digit_ok32 8 c2 _ _ d2) by (auto; lia).
      destruct r2 as [|c3 r3].
      * cbn [value_from] in Hv2. injection Hv2 as <-. cbn [app].
        rewrite accum_digit_no32 by (try lia; apply Hn; cbn; lia).
        rewrite rem_mod256 by lia. reflexivity.
      * destruct (vfrom_cons _ _ _ _ _ Hv2) as (d3 & E3 & L3 & Hv3).
        apply digit_of_nonneg in E3 as P3.
        cbn [app]. rewrite (accum_digit_ok32 8 c3 _ _ d3) by (auto; lia).
        destruct r3 as [|c4 r4]; [|cbn in Hl; lia].
        cbn [value_from] in Hv3. injection Hv3 as <-. cbn [app].
        rewrite rem_mod256 by lia. reflexivity.
  - destruct ds as [|c1 r1]; [discriminate|]. unfold numeral_value in Hv.
    destruct (vfrom_cons _ _ _ _ _ Hv) as (d1 & E1 & L1 & Hv1).
    apply digit_of_nonneg in E1 as P1.
    cbn [app get_string_char]. change (negb (92 =? 92)) with false. cbn iota.
    replace ((48 <=? x) && (x <=? 55)) with false by (destruct Hx as [-> | ->]; reflexivity).
    replace ((x =? 120) || (x =? 88)) with true by (destruct Hx as [-> | ->]; reflexivity).
    change 0 with (- 0). rewrite (accum_digit_ok32 16 c1 _ 0 d1) by (auto; lia).
    destruct r1 as [|c2 r2].
    + cbn [value_from] in Hv1. injection Hv1 as <-. cbn [app].
      rewrite accum_digit_no32 by (try lia; exact Hn).
      rewrite rem_mod256 by lia. now rewrite Z.mod_small by lia.
    + destruct (vfrom_cons _ _ _ _ _ Hv1) as (d2 & E2 & L2 & Hv2).
      apply digit_of_nonneg in E2 as P2.
      cbn [app]. rewrite (accum_digit_ok32 16 c2 _ _ d2) by (auto; lia).
      destruct r2 as [|c3 r3]; [|cbn in Hl; lia].
      cbn [value_from] in Hv2. injection Hv2 as <-. cbn [app].
      rewrite rem_mod256 by lia. now rewrite Z.mod_small by lia.
Qed.

Lemma escape_head e v rest : escape e v rest -> exists t, e = 92 :: t.
Proof. destruct 1; eauto. Qed.

Lemma accum_until_go q s bs rest : lit_body q s bs rest -> q <> 92 -> forall fuel,
  (length (s ++ q :: rest) <= fuel)%nat ->
  accum_string_until_go fuel q (s ++ q :: rest) = Some (bs, rest).
Proof.
  induction 1 as [rest | c s bs rest Hc1 Hc2 Hb IH | e v s bs rest He Hb IH]; intros Hq fuel Hf.
  - cbn [app]. destruct fuel; cbn; rewrite Z.eqb_refl; reflexivity.
  - cbn [app] in *. destruct fuel as [|f]; [cbn in Hf; lia|].
    cbn [accum_string_until_go]. destruct (Z.eqb_spec c q); [contradiction|].
    cbn [get_string_char]. destruct (Z.eqb_spec c 92); [contradiction|]. cbn [negb].
    rewrite IH by (auto; cbn in Hf; lia). reflexivity.
  - rewrite <- app_assoc in *. destruct (escape_head _ _ _ He) as [t ->].
    destruct fuel as [|f]; [cbn in Hf; lia|].
    cbn [app accum_string_until_go]. destruct (Z.eqb_spec 92 q); [congruence|].
    change (92 :: t ++ s ++ q :: rest) with ((92 :: t) ++ s ++ q :: rest).
    rewrite (get_string_char_escape _ _ _ He).
    rewrite IH; auto. cbn in Hf. rewrite app_length in Hf. lia.
Qed.

(** Pasting *)
Lemma paste_loop_ok : forall fuel ds res v,
  (length ds <= fuel)%nat -> value_from 10 0 ds = Some v ->
  (ds = [] \/ exists c r, ds = c :: r /\ c <> 48) -> 
  paste_loop fuel res v = Some (res * 10 ^ Z.of_nat (length ds)).
Proof.
  induction fuel as [|f IH]; intros ds res v Hl Hv Hc.
  - destruct ds; [|cbn in Hl; lia]. cbn in Hv. injection Hv as <-. cbn. f_equal. ring.
  - destruct ds as [|c0 r0].
    { cbn in Hv. injection Hv as <-. cbn. f_equal. ring. }
    destruct (exists_last (l := c0 :: r0) ltac:(discriminate)) as (l & c & El).
    rewrite El in *. rewrite value_from_app in Hv.
    destruct (value_from 10 0 l) as [a|] eqn:Ea; [|discriminate].
    destruct (vfrom1 _ _ _ _ Hv) as (d & Ed & Ld & ->).
    apply digit_of_nonneg in Ed as Pd.
    pose proof (value_from_lb 10 l ltac:(lia) 0 a ltac:(lia) Ea) as Pa.
    assert (Hpos : 0 < a * 10 + d).
    { destruct Hc as [Hc|(c1 & r1 & Hc & Hne)]; [destruct l; discriminate|].
      destruct l as [|c2 l2].
      - cbn in Hc. injection Hc as -> _. cbn in Ea. injection Ea as <-.
        assert (d <> 0); [|lia]. intros ->. unfold digit_of in Ed.
        destruct ((48 <=? c1) && (c1 <=? 57)) eqn:G1; [injection Ed; lia|].
        destruct ((65 <=? c1) && (c1 <=? 90)) eqn:G2; [apply andb_true_iff in G2; injection Ed; lia|].
        destruct ((97 <=? c1) && (c1 <=? 122)) eqn:G3; [apply andb_true_iff in G3; injection Ed; lia|discriminate].
      - cbn in Hc. injection Hc as -> _.
        destruct (vfrom_cons _ _ _ _ _ Ea) as (d2 & Ed2 & Ld2 & Hv2).
        apply digit_of_nonneg in Ed2 as Pd2.
        pose proof (value_from_lb 10 l2 ltac:(lia) (0 * 10 + d2) a ltac:(lia) Hv2).
        assert (d2 <> 0); [|lia]. intros ->. unfold digit_of in Ed2.
        destruct ((48 <=? c1) && (c1 <=? 57)) eqn:G1; [injection Ed2; lia|].
        destruct ((65 <=? c1) && (c1 <=? 90)) eqn:G2; [apply andb_true_iff in G2; injection Ed2; lia|].
        destruct ((97 <=? c1) && (c1 <=? 122)) eqn:G3; [apply andb_true_iff in G3; injection Ed2; lia|discriminate]. }
    cbn [paste_loop]. destruct (Z.ltb_spec 0 (a * 10 + d)); [|lia].
    rewrite Z.quot_div_nonneg by lia. rewrite Z.div_add_l, (Z.div_small d) by lia.
    rewrite Z.add_0_r. rewrite (IH l (res * 10) a); auto.
    + f_equal. rewrite app_length. cbn [length]. rewrite Nat2Z.inj_add. cbn.
      rewrite Z.pow_add_r by lia. change (10 ^ 1) with 10. ring.
    + rewrite app_length in Hl. cbn in Hl. lia.
    + destruct Hc as [Hc|(c1 & r1 & Hc & Hne)]; [destruct l; discriminate|].
      destruct l as [|c2 l2]; [auto|]. cbn in Hc. injection Hc as -> _. right. eauto.
Qed.

Lemma denotes_pos_head b ds v : denotes b ds v -> 0 < v -> exists c r, ds = c :: r /\ c <> 48.
Proof.
  intros [Hv [->|H]] Hp; [|exact H]. cbn in Hv. destruct (0 <? b); [|discriminate].
  injection Hv. lia.
Qed.

Lemma numeral_length_bound ds v : denotes 10 ds v -> 0 < v -> 10 ^ (Z.of_nat (length ds) - 1) <= v.
Proof.
  intros Hd Hp. destruct (denotes_pos_head _ _ _ Hd Hp) as (c & r & -> & Hne).
  destruct Hd as [Hv _]. unfold numeral_value in Hv.
  destruct (vfrom_cons _ _ _ _ _ Hv) as (d & Ed & Ld & Hv'). apply digit_of_nonneg in Ed as Pd.
  assert (d <> 0).
  { intros ->. unfold digit_of in Ed.
    destruct ((48 <=? c) && (c <=? 57)) eqn:G1; [injection Ed; lia|].
    destruct ((65 <=? c) && (c <=? 90)) eqn:G2; [apply andb_true_iff in G2; injection Ed; lia|].
    destruct ((97 <=? c) && (c <=? 122)) eqn:G3; [apply andb_true_iff in G3; injection Ed; lia|discriminate]. }
  destruct (digits_value_from 10 r) with (acc := 0) as [w Hw].
  { eapply value_from_digits; eauto. }
  rewrite (value_from_shift 10 r (0 * 10 + d) w Hw) in Hv'. injection Hv' as <-.
  pose proof (value_from_lb 10 r ltac:(lia) 0 w ltac:(lia) Hw).
  cbn [length]. rewrite Nat2Z.inj_succ. replace (Z.succ _ - 1) with (Z.of_nat (length r)) by lia.
  pose proof (Z.pow_pos_nonneg 10 (Z.of_nat (length r)) ltac:(lia) ltac:(lia)). nia.
Qed.

Lemma denotes_app b l1 l2 v1 v2 : denotes b l1 v1 -> 0 < v1 -> denotes b l2 v2 ->
  denotes b (l1 ++ l2) (v1 * b ^ Z.of_nat (length l2) + v2).
Proof.
  intros H1 Hp H2. destruct (denotes_pos_head _ _ _ H1 Hp) as (c & r & -> & Hne).
  destruct H1 as [Hv1 _]. destruct H2 as [Hv2 _]. split; [|right; exists c, (r ++ l2); auto].
  unfold numeral_value in *. destruct l2 as [|c2 r2]; [discriminate|].
  change (value_from b 0 ((c :: r) ++ c2 :: r2) = Some (v1 * b ^ Z.of_nat (length (c2 :: r2)) + v2)).
  rewrite value_from_app, Hv1. now apply value_from_shift.
Qed.

Lemma paste_ok l r dl dr v :
  denotes 10 dl l -> denotes 10 dr r -> 0 < l -> 0 < r ->
  denotes 10 (dl ++ dr) v -> v < 2147483648 ->
  paste_integers l r = Some v.
Proof.
  intros Hl Hr Pl Pr Hv Hlt.
  pose proof (denotes_app 10 dl dr l r Hl Pl Hr) as Ha.
  assert (v = l * 10 ^ Z.of_nat (length dr) + r) as ->.
  { destruct Hv as [Hv _], Ha as [Ha _]. congruence. }
  unfold paste_integers.
  assert (P10 : 0 < 10 ^ Z.of_nat (length dr)) by (apply Z.pow_pos_nonneg; lia).
  assert (Hr0 : 0 <= l * 10 ^ Z.of_nat (length dr)) by nia.
  rewrite (paste_loop_ok 10 dr l r).
  - replace (in_intb (l * 10 ^ Z.of_nat (length dr))) with true
      by (symmetry; apply in_intb_spec; unfold int_range; lia).
    replace (in_intb (l * 10 ^ Z.of_nat (length dr) + r)) with true
      by (symmetry; apply in_intb_spec; unfold int_range; lia).
    reflexivity.
  - destruct (Compare_dec.le_dec (length dr) 10); [assumption|].
    assert (10 ^ 10 <= 10 ^ Z.of_nat (length dr)) by (apply Z.pow_le_mono_r; lia).
    assert (10 ^ 10 = 10000000000) by reflexivity. nia.
  - destruct Hr as [Hr _]. unfold numeral_value in Hr. destruct dr; [discriminate|exact Hr].
  - right. eapply denotes_pos_head; eauto.
Qed.
