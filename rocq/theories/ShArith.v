(** * Arithmetic expansion of the POSIX shell, as a specification

    POSIX.1-2017 (XCU) 2.6.4: the text between dollar-paren-paren and paren-paren is first expanded
    (parameters and nested arithmetic, left to right), then read as a C expression over signed long
    integers, whose variables are the shell's variables.  Nothing here mentions pnut.

    - [item]: a character, a nested arithmetic expansion, or a parameter expansion.  The three are
      kept apart in the text, where the shell finds them by scanning for the dollar sign.
    - [lexr]: tokens by maximal munch (C11 6.4p4), constants by C11 6.4.4.1.
    - [AG]: C11's expression grammar (6.5.3-6.5.17), assignments to names only, no function calls,
      sizeof, casts, and no increment or decrement operator (POSIX does not require them).
    - [aev]: values are signed with [N] >= 32 bits; additions, subtractions and products wrap.
    - [exp]/[ari]: the value of a text, and the variables afterwards. *)
From Coq Require Import ZArith List Lia Bool.
From Verif Require Import Base Numerals Ast Parse.
Import ListNotations.
Open Scope Z_scope.

Definition name := list Z.
Definition vars := name -> Z.
Definition setv (n : name) (v : Z) (s : vars) : vars :=
  fun m => if list_eq_dec Z.eq_dec m n then v else s m.

(** ** Decimal numerals *)
Fixpoint dec_go (fuel : nat) (n : Z) (acc : list Z) : list Z :=
  match fuel with
  | O => acc
  | S f => if n <? 10 then (48 + n) :: acc else dec_go f (n / 10) ((48 + n mod 10) :: acc)
  end.
Definition decimal (v : Z) : list Z :=
  if v <? 0 then 45 :: dec_go (S (Z.to_nat (Z.log2 (- v)))) (- v) [] else dec_go (S (Z.to_nat (Z.log2 v))) v [].

(** ** Tokens *)
Inductive tok := TNum (v : Z) | TName (n : name) | TOp (op : Z).

Definition is_word (c : Z) : bool :=
  (c =? 95) || ((48 <=? c) && (c <=? 57)) || ((65 <=? c) && (c <=? 90)) || ((97 <=? c) && (c <=? 122)).
Definition is_dig (c : Z) : bool := (48 <=? c) && (c <=? 57).

(* 6.4.2.1: identifiers;  6.4.4.1: decimal, octal and hexadecimal constants *)
Definition is_ident (n : name) : Prop :=
  match n with c :: _ => is_dig c = false | [] => False end /\ forallb is_word n = true.
Inductive word_tok : list Z -> tok -> Prop :=
| w_name n : is_ident n -> word_tok n (TName n)
| w_dec w c r v : w = c :: r -> c <> 48 -> is_dig c = true -> numeral_value 10 w = Some v -> word_tok w (TNum v)
| w_oct w v : numeral_value 8 w = Some v -> word_tok (48 :: w) (TNum v)
| w_zero : word_tok [48] (TNum 0)
| w_hex x w v : x = 120 \/ x = 88 -> numeral_value 16 w = Some v -> word_tok (48 :: x :: w) (TNum v).

Definition op_table : list (list Z * Z) :=
  [ ([40], LPAR); ([41], RPAR); ([126], TILDE); ([33], EXCL); ([42], STAR); ([47], SLASHC); ([37], PERCENT);
    ([43], PLUS); ([45], MINUS); ([60; 60], LSHIFT); ([62; 62], RSHIFT); ([60], LT); ([62], GT);
    ([60; 61], LT_EQ); ([62; 61], GT_EQ); ([61; 61], EQ_EQ); ([33; 61], EXCL_EQ); ([38], AMP); ([94], CARET);
    ([124], BAR); ([38; 38], AMP_AMP); ([124; 124], BAR_BAR); ([63], QUEST); ([58], COLON); ([44], COMMA);
    ([61], EQ); ([43; 61], PLUS_EQ); ([45; 61], MINUS_EQ); ([42; 61], STAR_EQ); ([47; 61], SLASH_EQ);
    ([37; 61], PERCENT_EQ); ([38; 61], AMP_EQ); ([124; 61], BAR_EQ); ([94; 61], CARET_EQ);
    ([60; 60; 61], LSHIFT_EQ); ([62; 62; 61], RSHIFT_EQ); ([43; 43], PLUS_PLUS); ([45; 45], MINUS_MINUS) ].

Definition starts (p s : list Z) : Prop := exists r, s = p ++ r.
Inductive lexr : list Z -> list tok -> Prop :=
| l_nil : lexr [] []
| l_space r ts : lexr r ts -> lexr (32 :: r) ts
| l_word w t r ts : forallb is_word w = true -> match r with c :: _ => is_word c = false | [] => True end ->
    word_tok w t -> lexr r ts -> lexr (w ++ r) (t :: ts)
| l_op p op r ts : In (p, op) op_table ->
    (forall p' op', In (p', op') op_table -> starts p' (p ++ r) -> (length p' <= length p)%nat) ->
    lexr r ts -> lexr (p ++ r) (TOp op :: ts).

(** ** Syntax: levels 0 (unary and primary), 1-10 (binary), 11 conditional, 12 assignment, 13 comma *)
Inductive at_ := ANum (v : Z) | AVar (n : name) | APar (t : at_) | AUn (op : Z) (t : at_) | ABin (op : Z) (a b : at_)
               | ACond (c a b : at_) | AAsg (op : Z) (n : name) (t : at_) | AComma (a b : at_).

Definition unops : list Z := [PLUS; MINUS; TILDE; EXCL].
Inductive AG : nat -> list tok -> at_ -> Prop :=
| ag_num v : AG 0 [TNum v] (ANum v)
| ag_var n : AG 0 [TName n] (AVar n)
| ag_par ts t : AG 13 ts t -> AG 0 (TOp LPAR :: ts ++ [TOp RPAR]) (APar t)
| ag_un op ts t : In op unops -> AG 0 ts t -> AG 0 (TOp op :: ts) (AUn op t)
| ag_bin k op t1 a t2 b : (k < 10)%nat -> In op (binops (S k)) -> AG (S k) t1 a -> AG k t2 b ->
    AG (S k) (t1 ++ TOp op :: t2) (ABin op a b)
| ag_cond t1 c t2 a t3 b : AG 10 t1 c -> AG 13 t2 a -> AG 11 t3 b ->
    AG 11 (t1 ++ TOp QUEST :: t2 ++ TOp COLON :: t3) (ACond c a b)
| ag_asg n op ts t : In op assign_ops -> AG 12 ts t -> AG 12 (TName n :: TOp op :: ts) (AAsg op n t)
| ag_comma t1 a t2 b : AG 12 t1 a -> AG 13 t2 b -> AG 13 (t1 ++ TOp COMMA :: t2) (AComma a b)
| ag_up k ts t : (k < 13)%nat -> AG k ts t -> AG (S k) ts t.

(** ** Meaning *)
Section Meaning.
Variable N : Z.
Definition wrapN (z : Z) : Z := (z + 2 ^ (N - 1)) mod 2 ^ N - 2 ^ (N - 1).
Definition truth (b : bool) : Z := if b then 1 else 0.

Definition arith (op a b : Z) : option Z :=
  if op =? PLUS then Some (wrapN (a + b))
  else if op =? MINUS then Some (wrapN (a - b))
  else if op =? STAR then Some (wrapN (a * b))
  else if op =? SLASHC then if b =? 0 then None else Some (wrapN (Z.quot a b))
  else if op =? PERCENT then if b =? 0 then None else Some (Z.rem a b)
  else if op =? LSHIFT then if (0 <=? b) && (b <? N) then Some (wrapN (Z.shiftl a b)) else None
  else if op =? RSHIFT then if (0 <=? b) && (b <? N) then Some (Z.shiftr a b) else None
  else if op =? LT then Some (truth (a <? b))
  else if op =? GT then Some (truth (b <? a))
  else if op =? LT_EQ then Some (truth (a <=? b))
  else if op =? GT_EQ then Some (truth (b <=? a))
  else if op =? EQ_EQ then Some (truth (a =? b))
  else if op =? EXCL_EQ then Some (truth (negb (a =? b)))
  else if op =? AMP then Some (Z.land a b)
  else if op =? CARET then Some (Z.lxor a b)
  else if op =? BAR then Some (Z.lor a b)
  else None.
(* the operator inside a compound assignment *)
Definition asg_op (op : Z) : option Z :=
  if op =? PLUS_EQ then Some PLUS else if op =? MINUS_EQ then Some MINUS else if op =? STAR_EQ then Some STAR
  else if op =? SLASH_EQ then Some SLASHC else if op =? PERCENT_EQ then Some PERCENT
  else if op =? LSHIFT_EQ then Some LSHIFT else if op =? RSHIFT_EQ then Some RSHIFT
  else if op =? AMP_EQ then Some AMP else if op =? CARET_EQ then Some CARET else if op =? BAR_EQ then Some BAR
  else None.
Definition unary (op v : Z) : option Z :=
  if op =? PLUS then Some v else if op =? MINUS then Some (wrapN (- v)) else if op =? TILDE then Some (Z.lnot v)
  else if op =? EXCL then Some (truth (v =? 0)) else None.

Definition den := vars -> option (Z * vars).
Definition dand (f g : den) : den := fun s =>
  match f s with
  | Some (v, s1) => if v =? 0 then Some (0, s1)
                    else match g s1 with Some (w, s2) => Some (truth (negb (w =? 0)), s2) | None => None end
  | None => None
  end.
Definition dor (f g : den) : den := fun s =>
  match f s with
  | Some (v, s1) => if v =? 0 then match g s1 with Some (w, s2) => Some (truth (negb (w =? 0)), s2) | None => None end
                    else Some (1, s1)
  | None => None
  end.
Definition dop (op : Z) (f g : den) : den := fun s =>
  match f s with
  | Some (a, s1) => match g s1 with
                    | Some (b, s2) => match arith op a b with Some v => Some (v, s2) | None => None end
                    | None => None
                    end
  | None => None
  end.
Definition dbin (op : Z) (f g : den) : den :=
  if op =? AMP_AMP then dand f g else if op =? BAR_BAR then dor f g else dop op f g.
Definition dun (op : Z) (f : den) : den := fun s =>
  match f s with Some (v, s1) => match unary op v with Some w => Some (w, s1) | None => None end | None => None end.
Definition dcond (f g h : den) : den := fun s =>
  match f s with Some (v, s1) => if v =? 0 then h s1 else g s1 | None => None end.
Definition dcomma (f g : den) : den := fun s =>
  match f s with Some (_, s1) => g s1 | None => None end.
Definition dasg (op : Z) (n : name) (f : den) : den := fun s =>
  match f s with
  | Some (v, s1) =>
      if op =? EQ then Some (v, setv n v s1)
      else match asg_op op with
           | Some o => match arith o (s1 n) v with Some w => Some (w, setv n w s1) | None => None end
           | None => None
           end
  | None => None
  end.
Fixpoint aev (t : at_) : den :=
  match t with
  | ANum v => fun s => Some (v, s)
  | AVar n => fun s => Some (s n, s)
  | APar t => aev t
  | AUn op t => dun op (aev t)
  | ABin op a b => dbin op (aev a) (aev b)
  | ACond c a b => dcond (aev c) (aev a) (aev b)
  | AAsg op n t => dasg op n (aev t)
  | AComma a b => dcomma (aev a) (aev b)
  end.

(** ** Texts *)
Inductive item := Ch (c : Z) | Ar (t : list item) | Pv (n : name).
Inductive exp : list item -> vars -> list Z -> vars -> Prop :=
| e_nil s : exp [] s [] s
| e_ch c t s l s' : exp t s l s' -> exp (Ch c :: t) s (c :: l) s'
| e_pv n t s l s' : exp t s l s' -> exp (Pv n :: t) s (decimal (s n) ++ l) s'
| e_ar a v t s s1 l s' : ari a s v s1 -> exp t s1 l s' -> exp (Ar a :: t) s (decimal v ++ l) s'
with ari : list item -> vars -> Z -> vars -> Prop :=
| a_intro a s l s1 ts t v s2 : exp a s l s1 -> lexr l ts -> AG 13 ts t -> aev t s1 = Some (v, s2) -> ari a s v s2.
End Meaning.
