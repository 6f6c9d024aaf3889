(** * Enumerations: model of parse_enum (pnut.c:2623-2697) *)
From Coq Require Import ZArith List Lia Bool.
From Verif Require Import Base Ast EvalConst.
Import ListNotations.
Open Scope Z_scope.

(** pnut.c:1273-1279 [non_parenthesized_operand]. *)
Fixpoint non_parenthesized_operand (e : ast) : ast :=
  match e with
  | Node op _ [a] => if op =? PARENS then non_parenthesized_operand a else e
  | _ => e
  end.

Definition is_base_literal (op : Z) : bool := (op =? INTEGER) || (op =? INTEGER_HEX) || (op =? INTEGER_OCT).

(** pnut.c:2655-2670: the node of an enumerator with an explicit value.
    [sh]: the shell compiler (PARSE_NUMERIC_LITERAL_WITH_BASE).  The negation is a host int operation. *)
Definition explicit_value (sh : bool) (last : Z) (value : ast) : option ast :=
  let fold (v : ast) :=
    match eval_constant false v with
    | Some x => match chk (- x) with Some nx => Some (Node last nx []) | None => None end
    | None => None
    end in
  if sh then
    let v := non_parenthesized_operand value in
    if is_base_literal (get_op v) then Some v else fold v
  else fold value.

(** pnut.c:2644-2691: the loop over the enumerators, given the identifiers and the parsed initializers. *)
Fixpoint enum_loop (sh : bool) (last next : Z) (l : list (Z * option ast)) : option (list ast) :=
  match l with
  | [] => Some []
  | (id, init) :: r =>
      match init with
      | Some e =>
          match explicit_value sh last e with
          | Some v =>
              match chk (get_val v - 1) with
              | Some nx =>
                  match enum_loop sh (if sh then get_op v else last) nx r with
                  | Some rest => Some (new_ast2 EQ (new_ast0 IDENTIFIER id) v :: rest)
                  | None => None
                  end
              | None => None
              end
          | None => None
          end
      | None =>
          match chk (next - 1) with
          | Some nx =>
              match enum_loop sh last nx r with
              | Some rest => Some (new_ast2 EQ (new_ast0 IDENTIFIER id) (new_ast0 last next) :: rest)
              | None => None
              end
          | None => None
          end
      end
  end.

Definition parse_enumerators (sh : bool) (l : list (Z * option ast)) : option (list ast) :=
  enum_loop sh INTEGER 0 l.

(** The immediate loaded for an enumerator: exe.c:1427-1432 with emit_i64_le_large_imm (exe.c:50-57) on
    x86-64, [-get_val] on i386. *)
Definition enum_imm (target64 : bool) (heap : Z -> Z) (v : Z) : Z :=
  if target64 then if v <=? 0 then - v else heap v + 2 ^ 32 * heap (v + 1) else - v.

(** ** Specification (C11 6.7.2.2): the value given, or one more than the previous, starting at 0. *)
Fixpoint enum_spec (next : Z) (l : list (Z * option kexp)) : option (list (Z * Z)) :=
  match l with
  | [] => Some []
  | (id, init) :: r =>
      match (match init with Some e => kval e | None => Some next end) with
      | Some v => match enum_spec (v + 1) r with Some rest => Some ((id, v) :: rest) | None => None end
      | None => None
      end
  end.

(** The node of enumerator [id] with value [v]: a literal, stored negated. *)
Definition denotes (n : ast) (p : Z * Z) : Prop :=
  exists lit, n = new_ast2 EQ (new_ast0 IDENTIFIER (fst p)) (new_ast0 lit (- snd p)) /\ is_integer_tok lit = true.

Definition enc_items (l : list (Z * option kexp)) : list (Z * option ast) :=
  map (fun p => (fst p, option_map enc (snd p))) l.

Definition init_ok (p : Z * option kexp) : Prop :=
  match snd p with Some e => wf false e /\ ok false e | None => True end.

Lemma nonparen_enc e m : wf m e -> ok false e -> exists e', non_parenthesized_operand (enc e) = enc e' /\ wf m e' /\ ok false e' /\
  kval e' = kval e.
Proof.
  induction e as [t z|z|id|d|e IHe|o e IHe|o a IHa b IHb|a IHa b IHb|a IHa b IHb|c IHc a IHa b IHb]; intros Hw Hok.
  5: { cbn [enc non_parenthesized_operand]. destruct (IHe Hw Hok) as (e' & E & ?). exists e'.
       change (PARENS =? PARENS) with true. cbn iota. auto. }
  5: { exists (KUn o e). split; [now destruct o|auto]. }
  all: match goal with |- context [enc ?x] => exists x end; (split; [reflexivity|auto]).
Qed.

Lemma is_base_int op : is_base_literal op = true -> is_integer_tok op = true.
Proof.
  unfold is_base_literal, is_integer_tok. intros H.
  destruct (op =? INTEGER), (op =? INTEGER_HEX), (op =? INTEGER_OCT); try reflexivity; discriminate.
Qed.

Lemma enc_literal e m : wf m e -> is_integer_tok (get_op (enc e)) = true -> exists t z, e = KInt t z.
Proof.
  destruct e; cbn [enc get_op]; intros _ H; try discriminate; [eauto| |];
    match goal with o : kun |- _ => destruct o | o : kbin |- _ => destruct o end; discriminate.
Qed.

Lemma enum_loop_ok sh l : forall last next vals,
  Forall init_ok l -> is_integer_tok last = true ->
  enum_spec next l = Some vals -> Forall (fun p => -2147483647 <= snd p <= 2147483647) vals ->
  exists nodes, enum_loop sh last (- next) (enc_items l) = Some nodes /\ Forall2 denotes nodes vals.
Proof.
  induction l as [|[id init] r IH]; intros last next vals Hok Hlast Hs Hr.
  - cbn in *. injection Hs as <-. exists []. split; [reflexivity|constructor].
  - inversion Hok as [|? ? Hi Hrest]; subst. cbn [enum_spec] in Hs.
    destruct (match init with Some e => kval e | None => Some next end) as [v|] eqn:Ev; [|discriminate].
    destruct (enum_spec (v + 1) r) as [rest|] eqn:Er; [|discriminate]. injection Hs as <-.
    inversion Hr as [|? ? Hv Hr']; subst. cbn [snd] in Hv.
    assert (C1 : chk (- v) = Some (- v)).
    { unfold chk. assert (in_intb (- v) = true) as -> by (apply in_intb_spec; unfold int_range; lia). reflexivity. }
    assert (C2 : chk (- v - 1) = Some (- v - 1)).
    { unfold chk. assert (in_intb (- v - 1) = true) as -> by (apply in_intb_spec; unfold int_range; lia). reflexivity. }
    cbn [enc_items map fst snd option_map enum_loop]. destruct init as [e|]; cbn [option_map].
    + unfold init_ok in Hi. cbn [snd] in Hi. destruct Hi as [Hw Hk].
      assert (exists lit, explicit_value sh last (enc e) = Some (Node lit (- v) []) /\ is_integer_tok lit = true)
        as (lit & Ee & Hl).
      { unfold explicit_value. destruct sh.
        - destruct (nonparen_enc e false Hw Hk) as (e' & -> & Hw' & Hk' & Ev').
          destruct (is_base_literal (get_op (enc e'))) eqn:Eb.
          + destruct (enc_literal e' false Hw' (is_base_int _ Eb)) as (t & z & ->).
            exists t. rewrite <- Ev' in Ev. cbn in Ev. unfold ranged in Ev. destruct (in_intb z); [|discriminate].
            injection Ev as ->. split; [reflexivity|]. now apply is_base_int.
          + destruct (eval_agrees false e' false v Hw' Hk') as (x & -> & Hx); [congruence|].
            cbn in Hx. subst x. rewrite C1. eauto.
        - destruct (eval_agrees false e false v Hw Hk Ev) as (x & -> & Hx). cbn in Hx. subst x.
          rewrite C1. eauto. }
      rewrite Ee. cbn [get_val get_op]. rewrite C2.
      destruct (IH (if sh then lit else last) (v + 1) rest) as (nodes & En & Hf); auto.
      { now destruct sh. }
      replace (- (v + 1)) with (- v - 1) in En by lia. fold (enc_items r). rewrite En.
      eexists. split; [reflexivity|]. constructor; [|exact Hf]. exists lit. split; [reflexivity|exact Hl].
    + injection Ev as ->. rewrite C2.
      destruct (IH last (v + 1) rest) as (nodes & En & Hf); auto.
      replace (- (v + 1)) with (- v - 1) in En by lia. fold (enc_items r). rewrite En.
      eexists. split; [reflexivity|]. constructor; [|exact Hf]. exists last. split; [reflexivity|exact Hlast].
Qed.
