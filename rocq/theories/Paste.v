(** * Token pasting and stringizing: paste_tokens, stringify and the complete replay loop of get_tok
      (pnut.c:1908-2020, 2042-2094)

    Macro.v models the replay of macro bodies without # and ##.  Here is the loop in full, over the same
    contexts and stack.  Simplifications: as in Macro.v; what two tokens give when pasted is a parameter
    [pst] of this part ([None]: a syntax error), and the spelling of the result is the subject of the
    second part, over the identifier table of Store.v. *)
From Coq Require Import ZArith List Lia Bool Arith.
From Verif Require Import Macro.
From Verif Require Store.
Import ListNotations.
Local Notation length := List.length.

Definition HH : mtok := TT 471 0.                        (* HASH_HASH, pnut.c:178 *)
Definition HS : mtok := TT 35 0.                         (* '#' *)
Definition is_hh := is_tt 471.
Definition is_hs := is_tt 35.
(** The globals expand_macro_arg and paste_last_token. *)
Record state2 := S2 { base : state; xa : bool; pl : bool }.
Inductive res2 := R2Tok (t : mtok) (s : state2) | R2Err | R2Fuel.
Inductive ares2 := A2Ok (args : list (list mtok)) (s : state2) | A2Err | A2Fuel.
Inductive pres2 := P2Ok (arg : list mtok) (t : mtok) (s : state2) | P2Err | P2Fuel.
Definition setb (b : state) (s : state2) : state2 := S2 b (xa s) (pl s).
Definition setx (x : bool) (s : state2) : state2 := S2 (base s) x (pl s).
Definition setp (p : bool) (s : state2) : state2 := S2 (base s) (xa s) p.
(** pnut.c:1826 *)
Definition begin2 (ident : option name) (tokens : list mtok) (args : list (list mtok)) (s : state2) : option state2 :=
  match begin_macro_expansion ident tokens args (base s) with Some b => Some (setb b s) | None => None end.
(* the rest of the current list *)
Definition setl (l : list mtok) (s : state2) : state2 :=
  setb (St (Ctx l (c_args (cur (base s))) (c_ident (cur (base s)))) (stack (base s)) (inp (base s))) s.

Section Table.
  Variable tab : mtable.
  Variable pst : mtok -> mtok -> option mtok.
  Variable not_supported : Z.                            (* NOT_SUPPORTED_ID *)
  Definition STRING_TOK : Z := 411.                      (* STRING *)

  (** pnut.c:1875-1905, as in Macro.v *)
  Inductive attempted2 := A2Tok (t : mtok) (s : state2) | A2Go (s : state2) | A2Fail | A2NoFuel.
  Definition attempt2 (gt : state2 -> res2) (ga : state2 -> ares2) (n : name) (m : macro) (s : state2) : attempted2 :=
    if macro_is_already_expanding n (base s) then A2Tok (TId n) s
    else match m_argc m with
    | None => match begin2 (Some n) (m_toks m) [] s with Some s' => A2Go s' | None => A2Fail end
    | Some argc =>
        match gt s with
        | R2Tok t s1 =>
            if is_lp t then
              match ga s1 with
              | A2Ok args s2 =>
                  if Nat.eqb (length args) argc then
                    match begin2 (Some n) (m_toks m) args s2 with Some s' => A2Go s' | None => A2Fail end
                  else A2Fail
              | A2Err => A2Fail
              | A2Fuel => A2NoFuel
              end
            else match begin2 None [t] [] s1 with Some s' => A2Tok (TId n) s' | None => A2Fail end
        | R2Err => A2Fail
        | R2Fuel => A2NoFuel
        end
    end.
  (** pnut.c:1910-1926: the string of a single identifier or keyword; every other argument is not supported
      (for an empty argument, pnut looks at cells of the identifier table instead of a token: simplified) *)
  Definition string_of (arg : list mtok) : mtok :=
    match arg with [TId n] => TT STRING_TOK (Z.of_nat n) | _ => TT STRING_TOK not_supported end.

  (** pnut.c:2042-2148 *)
  Fixpoint get_tok2 (fuel : nat) (ex : bool) (s : state2) : res2 :=
    match fuel with
    | O => R2Fuel
    | S f =>
        let try n m s1 :=
          match attempt2 (get_tok2 f ex) (macro_args2 f) n m s1 with
          | A2Tok t s2 => R2Tok t s2
          | A2Go s2 => get_tok2 f ex s2
          | A2Fail => R2Err
          | A2NoFuel => R2Fuel
          end in
        (* pnut.c:2078-2090, with the token in tok *)
        let go t s1 :=
          match t with
          | TId n => match tab n with Some m => try n m s1 | None => R2Tok t s1 end
          | TArg i =>
              if xa s1 then
                match get_macro_arg i (c_args (cur (base s1))) with
                | Some a => match begin2 None a [] s1 with Some s2 => get_tok2 f ex s2 | None => R2Err end
                | None => R2Err
                end
              else R2Tok t s1
          | TT c _ => if Z.eqb c 35 then stringify f s1 else R2Tok t s1
          | TEof => R2Tok t s1
          end in
        let pasted r := match r with R2Tok t s1 => go t s1 | e => e end in
        match c_lst (cur (base s)) with
        | t :: l =>
            match l with
            | h :: l' =>
                if is_hh h then
                  if match t with TId n => match tab n with Some _ => true | None => false end | TArg _ => true | _ => false end
                  then go t (setp true (setl l' s))
                  else pasted (paste_tokens f t (setl l' s))
                else go t (setl l s)
            | [] =>
                if pl s then
                  match stack (base s) with
                  | [] => R2Err
                  | c :: st => pasted (paste_tokens f t (setp false (setb (St c st (inp (base s))) s)))
                  end
                else go t (setl l s)
            end
        | [] =>
            match stack (base s) with
            | c :: st => get_tok2 f ex (setb (St c st (inp (base s))) s)
            | [] =>
                match inp (base s) with
                | [] => R2Tok TEof s
                | t :: r =>
                    let s1 := setb (St (cur (base s)) (stack (base s)) r) s in
                    match t with
                    | TId n => match tab n with
                               | Some m => if ex then try n m s1 else R2Tok t s1
                               | None => R2Tok t s1
                               end
                    | _ => R2Tok t s1
                    end
                end
            end
        end
    end
  (** pnut.c:1943-1963: the token to the right; then the tokens are pasted *)
  with paste_tokens (fuel : nat) (t : mtok) (s : state2) : res2 :=
    match fuel with
    | O => R2Fuel
    | S f =>
        let with_right r s1 := match pst t r with Some u => R2Tok u s1 | None => R2Err end in
        match get_tok2 f false (setx false s) with
        | R2Tok r s1 =>
            let s1 := setx true s1 in
            match r with
            | TArg i =>
                match get_macro_arg i (c_args (cur (base s1))) with
                | Some [] => R2Tok t s1
                | Some a => match begin2 None a [] s1 with
                            | Some s2 => match get_tok2 f false s2 with R2Tok r2 s3 => with_right r2 s3 | e => e end
                            | None => R2Err
                            end
                | None => R2Err
                end
            | _ => with_right r s1
            end
        | e => e
        end
    end
  (** pnut.c:1908-1926 *)
  with stringify (fuel : nat) (s : state2) : res2 :=
    match fuel with
    | O => R2Fuel
    | S f =>
        match get_tok2 f false (setx false s) with
        | R2Tok r s1 =>
            let s1 := setx true s1 in
            match r with
            | TArg i => match get_macro_arg i (c_args (cur (base s1))) with
                        | Some a => R2Tok (string_of a) s1
                        | None => R2Err
                        end
            | _ => R2Err
            end
        | e => e
        end
    end
  with macro_args2 (fuel : nat) (s : state2) : ares2 :=
    match fuel with
    | O => A2Fuel
    | S f => match get_tok2 f false s with
             | R2Tok t s1 => args_loop2 f [] false t s1
             | R2Err => A2Err
             | R2Fuel => A2Fuel
             end
    end
  with args_loop2 (fuel : nat) (args : list (list mtok)) (prev_is_comma : bool) (t : mtok) (s : state2) : ares2 :=
    match fuel with
    | O => A2Fuel
    | S f =>
        if is_rp t then A2Ok (if prev_is_comma then [] :: args else args) s
        else if is_eof t then A2Err
        else if is_cm t then
          match get_tok2 f false s with
          | R2Tok t1 s1 => args_loop2 f (if prev_is_comma then [] :: args else args) true t1 s1
          | R2Err => A2Err
          | R2Fuel => A2Fuel
          end
        else match macro_parse_argument2 f 0 t s with
             | P2Ok arg t1 s1 => args_loop2 f (arg :: args) false t1 s1
             | P2Err => A2Err
             | P2Fuel => A2Fuel
             end
    end
  with macro_parse_argument2 (fuel : nat) (d : Z) (t : mtok) (s : state2) : pres2 :=
    match fuel with
    | O => P2Fuel
    | S f =>
        if ((0 <? d)%Z || negb (is_cm t || is_rp t)) && negb (is_eof t) then
          let d1 := if is_lp t then (d + 1)%Z else d in
          let d2 := if is_rp t then (d1 - 1)%Z else d1 in
          match get_tok2 f false s with
          | R2Tok t1 s1 =>
              match macro_parse_argument2 f d2 t1 s1 with
              | P2Ok arg t2 s2 => P2Ok (t :: arg) t2 s2
              | e => e
              end
          | R2Err => P2Err
          | R2Fuel => P2Fuel
          end
        else P2Ok [] t s
    end.
  Definition file2 (ts : list mtok) : state2 := S2 (file_state ts) true false.
  Fixpoint all_toks2 (n : nat) (s : state2) (fuel : nat) : option (list mtok) :=
    match n with
    | O => None
    | S k => match get_tok2 fuel true s with
             | R2Tok t s' => if is_eof t then Some [] else match all_toks2 k s' fuel with Some ts => Some (t :: ts) | None => None end
             | _ => None
             end
    end.
End Table.

(** ** Specification: C11 6.10.3.1-6.10.3.3 for a body and arguments in which no macro occurs

    A body is a sequence of pieces: an operand alone, operands joined by ##, or # and a parameter.  An
    operand is a token; if it is the name of a parameter, it stands for the tokens of the argument.  ## pastes
    the last token on its left with the first token on its right; an empty argument disappears.  The order of
    several ## is unspecified (6.10.3.3p3): here from the right. *)
Inductive piece := Glue (o : mtok) (os : list mtok) | Str (n : name).
Definition ptext (p : piece) : list mtok :=
  match p with
  | Glue o os => o :: flat_map (fun o => [HH; o]) os
  | Str n => [HS; TId n]
  end.
Section Spec.
  Variable pst : mtok -> mtok -> option mtok.
  Variable rho : bind.
  Definition oval (o : mtok) : list mtok := match o with TId n => match rho n with Some v => v | None => [o] end | _ => [o] end.
  (* a ## b *)
  Fixpoint glue2 (a b : list mtok) : option (list mtok) :=
    match a with
    | [] => Some b
    | [x] => match b with [] => Some [x] | y :: r => match pst x y with Some z => Some (z :: r) | None => None end end
    | x :: a => match glue2 a b with Some r => Some (x :: r) | None => None end
    end.
  Fixpoint glue (a : list mtok) (l : list (list mtok)) : option (list mtok) :=
    match l with [] => Some a | b :: l => match glue b l with Some r => glue2 a r | None => None end end.
  (* the tokens a piece stands for *)
  Definition gives (p : piece) (ts : list mtok) : Prop :=
    match p with
    | Glue o os => glue (oval o) (map oval os) = Some ts
    | Str p => exists n, rho p = Some [TId n] /\ ts = [TT STRING_TOK (Z.of_nat n)]
    end.
  (* the fragment: only ordinary tokens occur or are made, and only the last operand may be empty *)
  Variable ordinary : mtok -> Prop.
  Fixpoint clean_chain (o : mtok) (os : list mtok) : Prop :=
    Forall ordinary (oval o) /\ (forall ts, glue (oval o) (map oval os) = Some ts -> Forall ordinary ts) /\
    match os with [] => True | o2 :: os' => oval o <> [] /\ clean_chain o2 os' end.
  Definition clean (p : piece) : Prop := match p with Glue o os => clean_chain o os | Str _ => True end.
End Spec.
