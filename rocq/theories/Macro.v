(** * Macro expansion: model of get_tok's replay of macro bodies (pnut.c:2042-2094, 2128-2148), macro arguments
      (pnut.c:1732-1812), the stack of expansions (pnut.c:702-708, 1815-1862) and attempt_macro_expansion
      (pnut.c:1864-1905)

    Simplifications: the file is given as its list of tokens (C07); the macro table is fixed while the tokens are
    read (no directive among them); bodies contain neither # nor ## (C11 is about pasting), so that
    [expand_macro_arg] is always true; __FILE__ and __LINE__ are not in the table; if_macro_mask holds and
    newlines are skipped. *)
From Coq Require Import ZArith List Lia Bool Arith.
Import ListNotations.
Local Notation length := List.length.

Definition name := nat.
(** A token: an identifier or keyword, whose kind is looked up when it is used (pnut.c:2050-2053); a parameter of the
    macro being expanded (MACRO_ARG and its index); the end of the file; any other token and its value. *)
Inductive mtok := TId (n : name) | TArg (i : nat) | TEof | TT (c v : Z).
Definition LP : mtok := TT 40 0.
Definition RP : mtok := TT 41 0.
Definition CM : mtok := TT 44 0.
Definition is_tt (c : Z) (t : mtok) : bool := match t with TT d _ => Z.eqb c d | _ => false end.
Definition is_lp := is_tt 40.
Definition is_rp := is_tt 41.
Definition is_cm := is_tt 44.
Definition is_eof (t : mtok) : bool := match t with TEof => true | _ => false end.

(** The entry of a macro: the cons cell at heap[macro + 3]: tokens to replay and number of parameters
    ([None] is -1: object-like). *)
Record macro := Macro { m_toks : list mtok; m_argc : option nat }.
Definition mtable := name -> option macro.

(** pnut.c:1185-1201 [lookup_macro_token] and 1203-1228 [read_macro_tokens]: [args] is the list of parameters, last first. *)
Fixpoint lookup_ix (args : list name) (n : name) (ix : nat) : option nat :=
  match args with
  | [] => None
  | a :: r => if Nat.eqb a n then Some ix else lookup_ix r n (S ix)
  end.
Definition lookup_macro_token (args : list name) (t : mtok) : mtok :=
  match t with TId n => match lookup_ix args n 0 with Some ix => TArg ix | None => t end | _ => t end.
Definition read_macro_tokens (args : list name) (body : list mtok) : list mtok := map (lookup_macro_token args) body.
(** A definition in the source: [None] = object-like, [Some params] = function-like. *)
Record mdef := Def { d_params : option (list name); d_body : list mtok }.
(** pnut.c:1235-1270 [handle_define], from the parameters and body it reads (parameters are accumulated last first). *)
Definition handle_define (d : mdef) : macro :=
  match d_params d with
  | None => Macro (read_macro_tokens [] (d_body d)) None
  | Some ps => Macro (read_macro_tokens (rev ps) (d_body d)) (Some (length ps))
  end.

(** The globals macro_tok_lst, macro_args, macro_ident; macro_stack (innermost first, three cells per entry);
    and what is left of the file. *)
Record ctx := Ctx { c_lst : list mtok; c_args : list (list mtok); c_ident : option name }.
Record state := St { cur : ctx; stack : list ctx; inp : list mtok }.
Inductive res := RTok (t : mtok) (s : state) | RErr | RFuel.
Inductive ares := AOk (args : list (list mtok)) (s : state) | AErr | AFuel.
Inductive pres := POk (arg : list mtok) (t : mtok) (s : state) | PErr | PFuel.

(** pnut.c:703: MACRO_RECURSION_MAX *)
Definition MACRO_RECURSION_MAX : nat := 180.
(** pnut.c:1826-1841 [begin_macro_expansion]; [None] is the fatal error. *)
Definition begin_macro_expansion (ident : option name) (tokens : list mtok) (args : list (list mtok)) (s : state) : option state :=
  if MACRO_RECURSION_MAX <=? 3 * length (stack s) + 3 then None
  else Some (St (Ctx tokens args ident) (cur s :: stack s) (inp s)).
(** pnut.c:1848-1862 [macro_is_already_expanding] *)
Definition ident_is (n : name) (c : ctx) : bool := match c_ident c with Some m => Nat.eqb m n | None => false end.
Definition macro_is_already_expanding (n : name) (s : state) : bool :=
  match c_ident (cur s) with
  | None => false
  | Some m => Nat.eqb n m || existsb (ident_is n) (stack s)
  end.
(** pnut.c:1803-1811 [get_macro_arg]; [None]: the syntax error. *)
Fixpoint get_macro_arg (ix : nat) (args : list (list mtok)) : option (list mtok) :=
  match ix, args with
  | O, a :: _ => Some a
  | S i, _ :: r => get_macro_arg i r
  | _, [] => None
  end.

Section Table.
  Variable tab : mtable.

  (** pnut.c:1875-1905 [attempt_macro_expansion] on the macro [n] with entry [m]; [gt] is get_tok, [ga] reads the
      arguments. [ATok]: returns false, with the token left in tok; [AGo]: returns true. *)
  Inductive attempted := ATok (t : mtok) (s : state) | AGo (s : state) | AFail | ANoFuel.
  Definition attempt_macro_expansion (gt : state -> res) (ga : state -> ares) (n : name) (m : macro) (s : state) : attempted :=
    if macro_is_already_expanding n s then ATok (TId n) s
    else match m_argc m with
    | None => match begin_macro_expansion (Some n) (m_toks m) [] s with Some s' => AGo s' | None => AFail end
    | Some argc =>
        match gt s with
        | RTok t s1 =>
            if is_lp t then
              match ga s1 with
              | AOk args s2 =>
                  if Nat.eqb (length args) argc then
                    match begin_macro_expansion (Some n) (m_toks m) args s2 with Some s' => AGo s' | None => AFail end
                  else AFail (* macro argument count mismatch *)
              | AErr => AFail
              | AFuel => ANoFuel
              end
            else (* undo_token *)
              match begin_macro_expansion None [t] [] s1 with Some s' => ATok (TId n) s' | None => AFail end
        | RErr => AFail
        | RFuel => ANoFuel
        end
    end.

  (** [ex] is expand_macro; get_tok_macro_expand (pnut.c:1174-1183) is get_tok with [ex] false. *)
  Fixpoint get_tok (fuel : nat) (ex : bool) (s : state) : res :=
    match fuel with
    | O => RFuel
    | S f =>
        let try n m s1 :=
          match attempt_macro_expansion (get_tok f ex) (macro_args f) n m s1 with
          | ATok t s2 => RTok t s2
          | AGo s2 => get_tok f ex s2
          | AFail => RErr
          | ANoFuel => RFuel
          end in
        match c_lst (cur s) with
        | t :: l =>
            let s1 := St (Ctx l (c_args (cur s)) (c_ident (cur s))) (stack s) (inp s) in
            match t with
            | TId n => match tab n with Some m => try n m s1 | None => RTok t s1 end
            | TArg i =>
                match get_macro_arg i (c_args (cur s)) with
                | Some a => match begin_macro_expansion None a [] s1 with Some s2 => get_tok f ex s2 | None => RErr end
                | None => RErr
                end
            | _ => RTok t s1
            end
        | [] =>
            match stack s with
            | c :: st => get_tok f ex (St c st (inp s))   (* return_to_parent_macro *)
            | [] =>
                match inp s with
                | [] => RTok TEof s
                | t :: r =>
                    let s1 := St (cur s) (stack s) r in
                    match t with
                    | TId n => match tab n with
                               | Some m => if ex then try n m s1 else RTok t s1
                               | None => RTok t s1
                               end
                    | _ => RTok t s1
                    end
                end
            end
        end
    end
  (** pnut.c:1768-1801 [get_macro_args_toks]: tok is '(' *)
  with macro_args (fuel : nat) (s : state) : ares :=
    match fuel with
    | O => AFuel
    | S f => match get_tok f false s with
             | RTok t s1 => args_loop f [] false t s1
             | RErr => AErr
             | RFuel => AFuel
             end
    end
  with args_loop (fuel : nat) (args : list (list mtok)) (prev_is_comma : bool) (t : mtok) (s : state) : ares :=
    match fuel with
    | O => AFuel
    | S f =>
        if is_rp t then AOk (if prev_is_comma then [] :: args else args) s
        else if is_eof t then AErr
        else if is_cm t then
          match get_tok f false s with
          | RTok t1 s1 => args_loop f (if prev_is_comma then [] :: args else args) true t1 s1
          | RErr => AErr
          | RFuel => AFuel
          end
        else match macro_parse_argument f 0 t s with
             | POk arg t1 s1 => args_loop f (arg :: args) false t1 s1
             | PErr => AErr
             | PFuel => AFuel
             end
    end
  (** pnut.c:1732-1752 [macro_parse_argument]; parens_depth [d]. *)
  with macro_parse_argument (fuel : nat) (d : Z) (t : mtok) (s : state) : pres :=
    match fuel with
    | O => PFuel
    | S f =>
        if ((0 <? d)%Z || negb (is_cm t || is_rp t)) && negb (is_eof t) then
          let d1 := if is_lp t then (d + 1)%Z else d in
          let d2 := if is_rp t then (d1 - 1)%Z else d1 in
          match get_tok f false s with
          | RTok t1 s1 =>
              match macro_parse_argument f d2 t1 s1 with
              | POk arg t2 s2 => POk (t :: arg) t2 s2
              | e => e
              end
          | RErr => PErr
          | RFuel => PFuel
          end
        else POk [] t s
    end.

  (** The parser's view: the tokens of a file, each read by get_tok, until the end of the file. *)
  Definition file_state (ts : list mtok) : state := St (Ctx [] [] None) [] ts.
  Fixpoint all_toks (n : nat) (s : state) (fuel : nat) : option (list mtok) :=
    match n with
    | O => None
    | S k => match get_tok fuel true s with
             | RTok t s' => if is_eof t then Some [] else match all_toks k s' fuel with Some ts => Some (t :: ts) | None => None end
             | _ => None
             end
    end.
End Table.
(** The table after the definitions. *)
Definition table_of (defs : name -> option mdef) : mtable := fun n => match defs n with Some d => Some (handle_define d) | None => None end.

(** ** Specification (C11 6.10.3)

    A piece of source text, parsed with respect to the macro definitions: a token, an identifier that is no macro (it may be
    a parameter), the name of an object-like macro, or a function-like macro and its arguments. *)
Inductive item := IT (c v : Z) | IId (n : name) | IObj (n : name) | ICall (n : name) (args : list (list item)).
Fixpoint join (l : list (list mtok)) : list mtok :=
  match l with [] => [] | [a] => a | a :: r => a ++ CM :: join r end.
Fixpoint flat (it : item) : list mtok :=
  match it with
  | IT c v => [TT c v]
  | IId n => [TId n]
  | IObj n => [TId n]
  | ICall n args => TId n :: LP :: join (map (fun a => flat_map flat a) args) ++ [RP]
  end.
Definition flats (its : list item) : list mtok := flat_map flat its.

(* parentheses match, and every comma is inside some *)
Fixpoint arg_ok (d : nat) (ts : list mtok) : bool :=
  match ts with
  | [] => Nat.eqb d 0
  | t :: r => if is_lp t then arg_ok (S d) r
              else if is_rp t then match d with S d' => arg_ok d' r | O => false end
              else if is_cm t then negb (Nat.eqb d 0) && arg_ok d r
              else negb (is_eof t) && arg_ok d r
  end.
Definition bind := name -> option (list mtok).
Definition no_bind : bind := fun _ => None.
Fixpoint bind_all (ps : list name) (vs : list (list mtok)) : bind :=
  match ps, vs with
  | p :: ps', v :: vs' => fun n => if Nat.eqb n p then Some v else bind_all ps' vs' n
  | _, _ => no_bind
  end.
(* The first argument is not empty, or there are no arguments at all. *)
Definition args_ok (argc : nat) (vs : list (list mtok)) : Prop :=
  Forall (fun v => arg_ok 0 v = true) vs /\ length vs = argc /\ match vs with [] :: _ => False | _ => True end.

Section Spec.
  Variable defs : name -> option mdef.
  Definition is_macro (n : name) : Prop := defs n <> None.
  (** [expand b scan H rho its ts]: with parameters bound to [rho], [its] stands for [ts].  [H]: the macros being replaced
      (6.10.3.4p2).  [scan]: the text is being rescanned for its own sake, not as an argument; then a macro that is being
      replaced stands for its name.  (As part of an argument, it may not occur: the fragment.)  [b] bounds the nesting. *)
  Inductive expand : nat -> bool -> list name -> bind -> list item -> list mtok -> Prop :=
  | x_nil b scan H rho : expand b scan H rho [] []
  | x_cons b scan H rho it its t ts : expand1 b scan H rho it t -> expand b scan H rho its ts -> expand b scan H rho (it :: its) (t ++ ts)
  with expand1 : nat -> bool -> list name -> bind -> item -> list mtok -> Prop :=
  | x_tok b scan H rho c v : expand1 b scan H rho (IT c v) [TT c v]
  | x_id b scan H rho n : ~ is_macro n -> rho n = None -> expand1 b scan H rho (IId n) [TId n]
  | x_param b scan H rho n ts : rho n = Some ts -> expand1 (S b) scan H rho (IId n) ts
  | x_hidden_obj b H rho n : In n H -> rho n = None -> is_macro n -> expand1 b true H rho (IObj n) [TId n]
  | x_obj b scan H rho n body its ts : ~ In n H -> rho n = None -> defs n = Some (Def None body) -> flats its = body ->
      expand b scan (n :: H) no_bind its ts -> expand1 (S b) scan H rho (IObj n) ts
  | x_hidden_call b H rho n args vs : In n H -> rho n = None -> is_macro n -> expands b true H rho args vs ->
      expand1 b true H rho (ICall n args) (TId n :: LP :: join vs ++ [RP])
  | x_call b scan H rho n args vs ps body its ts : ~ In n H -> rho n = None -> defs n = Some (Def (Some ps) body) -> NoDup ps ->
      expands (pred b) false (n :: H) rho args vs -> args_ok (length ps) vs -> args_ok (length ps) (map flats args) ->
      flats its = body ->
      expand b scan (n :: H) (bind_all ps vs) its ts -> expand1 (S b) scan H rho (ICall n args) ts
  with expands : nat -> bool -> list name -> bind -> list (list item) -> list (list mtok) -> Prop :=
  | xs_nil b scan H rho : expands b scan H rho [] []
  | xs_cons b scan H rho a args v vs : expand b scan H rho a v -> expands b scan H rho args vs -> expands b scan H rho (a :: args) (v :: vs).
End Spec.
