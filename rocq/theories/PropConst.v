(** * C08, C09, C16: conditional inclusion, constant expressions, enumerations *)
From Coq Require Import ZArith List Lia Bool.
From Verif Require Import Base Ast EvalConst Cond Enum.
Import ListNotations.
Open Scope Z_scope.

(** ** C09 *)
(** The value of a constant expression is its C value, provided && and || are applied so that their right
    operand is 0 or 1 wherever the value matters (see [c09_logical_refuted]). *)
Theorem c09_constant_value_partial : forall if_macro e v,
  wf if_macro e -> ok false e -> kval e = Some v -> eval_constant if_macro (enc e) = Some v.
Proof.
  intros m e v Hw Hk Hv. destruct (eval_agrees m e false v Hw Hk Hv) as (r & E & Ha). cbn in Ha. now subst r.
Qed.

(** Where only the truth of the value is used, as in #if, this proviso is needed only for the operands of the
    arithmetic operators. *)
Theorem c09_truth_value : forall if_macro e v,
  wf if_macro e -> ok true e -> kval e = Some v ->
  exists r, eval_constant if_macro (enc e) = Some r /\ (r = 0 <-> v = 0).
Proof.
  intros m e v Hw Hk Hv. destruct (eval_agrees m e true v Hw Hk Hv) as (r & E & Ha). exists r. split; [exact E|].
  cbn in Ha. rewrite <- !Z.eqb_eq. now rewrite Ha.
Qed.

(** [1 && 2] is 1 in C; pnut computes 2: an enumerator, array size or case label written so is wrong. *)
Theorem c09_logical_refuted :
  let e := KAnd (KInt INTEGER 1) (KInt INTEGER 2) in
  wf false e /\ kval e = Some 1 /\ eval_constant false (enc e) = Some 2.
Proof. cbn. repeat split; lia. Qed.

(** Non-vacuity: -7 / 2 + (1 << 4) * 'a' % (3 > 2 ? 100 : 7) - ~0 (= -3 + 1552 % 100 + 1). *)
Example c09_example :
  let e := KBin KSub (KBin KAdd (KBin KDiv (KUn KNeg (KInt INTEGER 7)) (KInt INTEGER 2))
             (KBin KMod (KBin KMul (KParen (KBin KShl (KInt INTEGER 1) (KInt INTEGER_HEX 4))) (KChar 97))
                (KCond (KBin KGt (KInt INTEGER 3) (KInt INTEGER 2)) (KInt INTEGER 100) (KInt INTEGER_OCT 7))))
             (KUn KCompl (KInt INTEGER 0)) in
  wf false e /\ ok false e /\ kval e = Some 50 /\ eval_constant false (enc e) = Some 50.
Proof. cbn. repeat split; try lia. Qed.
Example c09_example_truth :
  let e := KAnd (KDefined true) (KOr (KName 5) (KInt INTEGER 6)) in
  wf true e /\ ok true e /\ kval e = Some 1 /\ eval_constant true (enc e) = Some 6.
Proof. cbn. repeat split; try lia; discriminate. Qed.

(** ** C08 *)
(** On every properly nested file with at most ten nested groups, whose conditions (including those in
    skipped groups, which pnut evaluates) are evaluable, exactly the text C selects is kept, the macros are
    those C defines, and the preprocessor is back in its initial state. *)
Theorem c08_conditional_inclusion_partial : forall env t,
  depth t <= 10 -> fine true env t ->
  exists s, do_lines (pst0 env) (lines_of t) = Some (s, fst (sel env t)) /\
    penv s = snd (sel env t) /\ mask s = true /\ six s = 0.
Proof.
  intros env t Hd Hf. destruct (proj1 group_sound t (pst0 env)) as (s & E & M & X & I & S & V).
  - exact Hf.
  - cbn. lia.
  - change (six (pst0 env)) with 0. unfold IFDEF_DEPTH_MAX. lia.
  - exists s. cbn [pst0 mask penv out_of] in *. repeat split; assumption.
Qed.

(** The same at any place of a file: in an active part the selected text is kept, in a skipped part nothing
    is, and afterwards the surrounding group goes on as if the inner lines had not been there. *)
Theorem c08_nested_group_transparent : forall s t,
  0 <= six s -> six s + 2 * depth t <= 20 -> fine (mask s) (penv s) t ->
  exists s', do_lines s (lines_of t) = Some (s', if mask s then fst (sel (penv s) t) else []) /\
    mask s' = mask s /\ executed s' = executed s /\ six s' = six s /\
    (forall i, i < six s -> stk s' i = stk s i) /\
    penv s' = (if mask s then snd (sel (penv s) t) else penv s).
Proof.
  intros s t H0 Hd Hf. destruct (proj1 group_sound t s Hf H0 Hd) as (s' & E & M & X & I & S & V).
  exists s'. unfold out_of in *. destruct (mask s); cbn [fst snd] in *; repeat split; assumption.
Qed.

(** An #endif without #if is reported. *)
Theorem c08_unbalanced_endif : forall env o r ls t, o = lines_of t -> depth t <= 10 -> fine true env t ->
  ls = o ++ LEndif :: r -> do_lines (pst0 env) ls = None.
Proof.
  intros env o r ls t -> Hd Hf ->. destruct (c08_conditional_inclusion_partial env t Hd Hf) as (s & E & _ & _ & I).
  rewrite do_lines_app, E. cbn [do_lines do_line]. unfold pop_if_macro_mask. now rewrite I.
Qed.

(** Eleven nested groups are refused, whatever follows. *)
Theorem c08_depth_refuted : forall env id rest,
  do_lines (pst0 env) (repeat (LIfdef id) 11 ++ rest) = None.
Proof. reflexivity. Qed.

(** A condition C does not evaluate (here [1 / 0] in a skipped group) stops pnut. *)
Theorem c08_skipped_condition_refuted : forall env,
  let t := ICons (IGroup (CIf (PInt 0)) (ICons (IGroup (CIf (PBin KDiv (PInt 1) (PInt 0))) INil TEndif) INil) TEndif)
             (ICons (IText 7) INil) in
  fst (sel env t) = [7] /\ do_lines (pst0 env) (lines_of t) = None.
Proof. intros env. split; reflexivity. Qed.

(** A stray #else is not reported, and a second one silently drops the rest of the file; two #else in a group
    and an unterminated #if are accepted too. *)
Theorem c08_stray_else_refuted : forall env n m,
  (exists s, do_lines (pst0 env) [LElse; LText n; LElse; LText m] = Some (s, [n])) /\
  (exists s, do_lines (pst0 env) [LIf (PInt 1); LText n; LElse; LElse; LEndif; LText m] = Some (s, [n; m])) /\
  (exists s, do_lines (pst0 env) [LIf (PInt 0); LText n] = Some (s, [])).
Proof. intros. repeat split; eexists; reflexivity. Qed.

(** Non-vacuity: a group with #ifdef, #elif, #else, nesting and a macro defined inside. *)
Example c08_example :
  let env : menv := fun i => if i =? 1 then Some (Some 5) else None in
  let t := ICons (IText 0)
    (ICons (IGroup (CIfdef 2) (ICons (IText 1) INil)
      (TElif (PAnd (PDefined 1) (PBin KEq (PName 1) (PInt 5)))
         (ICons (IDefine 3 (Some 2)) (ICons (IGroup (CIfndef 3) (ICons (IText 2) INil) (TElse (ICons (IText 3) INil))) INil))
         (TElse (ICons (IText 4) INil))))
    (ICons (IGroup (CIf (PName 3)) (ICons (IText 5) INil) TEndif) INil)) in
  depth t = 2 /\ fine true env t /\ fst (sel env t) = [0; 3; 5] /\
  exists s, do_lines (pst0 env) (lines_of t) = Some (s, [0; 3; 5]).
Proof.
  intros env t.
  assert (F : fine true env t).
  { unfold t. cbn [fine fine_item fine_tail cnd_fine].
    assert (E0 : cond_fine env (PAnd (PDefined 1) (PBin KEq (PName 1) (PInt 5)))).
    { exists (KAnd (KDefined true) (KBin KEq (KInt INTEGER 5) (KInt INTEGER 5))), 1.
      split; [reflexivity|]. split; [cbn [wf]; repeat split; lia|]. split; [|reflexivity].
      cbn [ok]. repeat split. discriminate. }
    assert (E3 : forall e, e 3 = Some (Some 2) -> cond_fine e (PName 3)).
    { intros e H3. exists (KInt INTEGER 2), 2. split; [cbn [expand]; now rewrite H3|].
      split; [split; [reflexivity|lia]|]. split; [exact I|reflexivity]. }
    repeat match goal with
    | |- _ /\ _ => split
    | |- True => exact I
    | |- cond_fine _ (PName 3) => apply E3; vm_compute; reflexivity
    | |- cond_fine _ _ => exact E0
    end. }
  split; [reflexivity|]. split; [exact F|].
  split; [vm_compute; reflexivity|].
  destruct (c08_conditional_inclusion_partial env t) as (s & E & _); [vm_compute; discriminate|exact F|].
  exists s. exact E.
Qed.

(** ** C16 *)
Theorem c16_enumerators_partial : forall sh l vals,
  Forall init_ok l -> enum_spec 0 l = Some vals ->
  Forall (fun p => -2147483647 <= snd p <= 2147483647) vals ->
  exists nodes, parse_enumerators sh (enc_items l) = Some nodes /\ Forall2 denotes nodes vals.
Proof.
  intros sh l vals H1 H2 H3. apply (enum_loop_ok sh l INTEGER 0 vals H1 eq_refl H2 H3).
Qed.

(** The native compilers load the enumerator's value: always on i386, on x86-64 when it is not negative. *)
Theorem c16_enum_immediate_partial : forall target64 heap v, target64 = false \/ 0 <= v ->
  enum_imm target64 heap (- v) = v.
Proof.
  intros t h v H. unfold enum_imm. destruct t; [|lia]. destruct H as [H|H]; [discriminate|].
  destruct (Z.leb_spec (- v) 0); lia.
Qed.

(** On x86-64 a negative enumerator is taken for the address of a large literal: [enum { A = -1 }] makes A
    whatever the compiler's heap holds at 1. *)
Theorem c16_negative_enum_refuted :
  exists node, parse_enumerators false (enc_items [(9, Some (KUn KNeg (KInt INTEGER 1)))]) = Some [node] /\
  denotes node (9, -1) /\
  forall heap, enum_imm true heap 1 = heap 1 + 2 ^ 32 * heap 2.
Proof.
  eexists. split; [reflexivity|]. split; [exists INTEGER; split; reflexivity|]. reflexivity.
Qed.

(** Non-vacuity: enum { A, B, C = -3, D, E = 0x10 | 1, F }. *)
Example c16_example :
  let l := [(1, None); (2, None); (3, Some (KUn KNeg (KInt INTEGER 3))); (4, None);
            (5, Some (KBin KBor (KInt INTEGER_HEX 16) (KInt INTEGER 1))); (6, None)] in
  Forall init_ok l /\
  enum_spec 0 l = Some [(1, 0); (2, 1); (3, -3); (4, -2); (5, 17); (6, 18)].
Proof.
  cbv zeta. split; [|reflexivity].
  repeat (apply Forall_cons; [unfold init_ok; cbn [snd]; cbn; repeat split; try lia|]). apply Forall_nil.
Qed.
