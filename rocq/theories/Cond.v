(** * Conditional inclusion: model of pnut.c:687-740, 1403-1418, 1449-1548 *)
From Coq Require Import ZArith List Lia Bool.
From Verif Require Import Base Ast EvalConst.
Import ListNotations.
Open Scope Z_scope.

(** The macro table.  [None]: not a macro; [Some None]: a macro with an empty body; [Some (Some z)]: an
    object-like macro whose body is the literal [z].  Simplification: other macro bodies are not
    modelled here. *)
Definition menv := Z -> option (option Z).
Definition is_macro (env : menv) (id : Z) : bool := match env id with Some _ => true | None => false end.
Definition mset (env : menv) (id : Z) (v : option (option Z)) : menv :=
  fun i => if i =? id then v else env i.

(** Conditions of #if and #elif as written in the source. *)
Inductive pexp :=
| PInt (z : Z) | PChar (z : Z) | PName (id : Z) | PDefined (id : Z)
| PParen (e : pexp) | PUn (o : kun) (e : pexp) | PBin (o : kbin) (a b : pexp)
| PAnd (a b : pexp) | POr (a b : pexp) | PCond (c a b : pexp).

Definition m2 {A B C} (f : A -> B -> C) (a : option A) (b : option B) : option C :=
  match a, b with Some x, Some y => Some (f x y) | _, _ => None end.

(** The tree the parser builds once the macros of the condition are expanded (pnut.c:1403-1413;
    [defined] pnut.c:3277-3300).  [None]: the parser reports an error (an empty macro body leaves an
    operator without operand). *)
Fixpoint cond_ast (env : menv) (p : pexp) : option ast :=
  match p with
  | PInt z => Some (Node INTEGER (- z) [])
  | PChar z => Some (Node CHARACTER z [])
  | PName id => match env id with
                | None => Some (Node IDENTIFIER id [])
                | Some None => None
                | Some (Some z) => Some (Node INTEGER (- z) [])
                end
  | PDefined id => Some (Node LPAR 0 [Node IDENTIFIER DEFINED_ID [];
                                      Raw (if is_macro env id then MACRO else IDENTIFIER)])
  | PParen e => option_map (fun a => Node PARENS 0 [a]) (cond_ast env e)
  | PUn o e => option_map (fun a => Node (kun_tok o) 0 [a]) (cond_ast env e)
  | PBin o a b => m2 (fun x y => Node (kbin_tok o) 0 [x; y]) (cond_ast env a) (cond_ast env b)
  | PAnd a b => m2 (fun x y => Node AMP_AMP 0 [x; y]) (cond_ast env a) (cond_ast env b)
  | POr a b => m2 (fun x y => Node BAR_BAR 0 [x; y]) (cond_ast env a) (cond_ast env b)
  | PCond c a b => match cond_ast env c with
                   | Some x => m2 (fun y z => Node QUEST 0 [x; y; z]) (cond_ast env a) (cond_ast env b)
                   | None => None
                   end
  end.

(** pnut.c:1403-1418 [evaluate_if_condition]. *)
Definition evaluate_if_condition (env : menv) (p : pexp) : option Z :=
  match cond_ast env p with Some t => eval_constant true t | None => None end.

(** Lines of a source file. *)
Inductive pline :=
| LText (n : Z) | LDefine (id : Z) (body : option Z) | LUndef (id : Z)
| LIfdef (id : Z) | LIfndef (id : Z) | LIf (c : pexp) | LElif (c : pexp) | LElse | LEndif.

(** pnut.c:687-691: mask, executed flag, stack and stack index. *)
Record pst := PS { mask : bool; executed : bool; stk : Z -> bool; six : Z; penv : menv }.
Definition IFDEF_DEPTH_MAX := 20.
Definition aset (a : Z -> bool) (i : Z) (v : bool) : Z -> bool := fun j => if j =? i then v else a j.

(** pnut.c:712 [prev_macro_mask]. *)
Definition prev_macro_mask (s : pst) : bool := (six s =? 0) || stk s (six s - 2).

(** pnut.c:716-730 [push_if_macro_mask]. *)
Definition push_if_macro_mask (s : pst) (new_mask : bool) : option pst :=
  if IFDEF_DEPTH_MAX <=? six s then None
  else
    let stk1 := aset (stk s) (six s) (mask s) in
    let stk2 := aset stk1 (six s + 1) (executed s) in
    let nm := mask s && new_mask in
    Some (PS nm nm stk2 (six s + 2) (penv s)).

(** pnut.c:732-740 [pop_if_macro_mask]. *)
Definition pop_if_macro_mask (s : pst) : option pst :=
  if six s =? 0 then None
  else let i := six s - 2 in Some (PS (stk s i) (stk s (i + 1)) (stk s) i (penv s)).

(** pnut.c:1449-1548 [handle_preprocessor_directive] and the masking of ordinary text (pnut.c:2438-2442):
    the new state and the text line produced, if any.  [None]: pnut stops with an error. *)
Definition do_line (s : pst) (l : pline) : option (pst * list Z) :=
  let quiet (o : option pst) := option_map (fun s' => (s', [])) o in
  match l with
  | LText n => Some (s, if mask s then [n] else [])
  | LIfdef id => quiet (push_if_macro_mask s (is_macro (penv s) id))
  | LIfndef id => quiet (push_if_macro_mask s (negb (is_macro (penv s) id)))
  | LIf c => match evaluate_if_condition (penv s) c with
             | Some v => quiet (push_if_macro_mask s (negb (v =? 0)))
             | None => None
             end
  | LElif c => match evaluate_if_condition (penv s) c with
               | Some v =>
                   let temp := negb (v =? 0) in
                   Some (if prev_macro_mask s && negb (executed s)
                         then PS temp (executed s || temp) (stk s) (six s) (penv s)
                         else PS false (executed s) (stk s) (six s) (penv s), [])
               | None => None
               end
  | LElse => Some (if prev_macro_mask s
                   then PS (negb (executed s)) true (stk s) (six s) (penv s)
                   else PS false (executed s) (stk s) (six s) (penv s), [])
  | LEndif => quiet (pop_if_macro_mask s)
  | LDefine id b => if mask s then Some (PS (mask s) (executed s) (stk s) (six s) (mset (penv s) id (Some b)), [])
                    else Some (s, [])
  | LUndef id => if mask s then Some (PS (mask s) (executed s) (stk s) (six s) (mset (penv s) id None), [])
                 else Some (s, [])
  end.

Fixpoint do_lines (s : pst) (ls : list pline) : option (pst * list Z) :=
  match ls with
  | [] => Some (s, [])
  | l :: r => match do_line s l with
              | Some (s1, o1) => match do_lines s1 r with
                                 | Some (s2, o2) => Some (s2, o1 ++ o2)
                                 | None => None
                                 end
              | None => None
              end
  end.

(** The state before the first line (pnut.c:688-691). *)
Definition pst0 (env : menv) : pst := PS true false (fun _ => false) 0 env.

(** ** Specification: conditional inclusion (C11 6.10.1) on properly nested groups *)
Inductive cnd := CIfdef (id : Z) | CIfndef (id : Z) | CIf (c : pexp).
Inductive items := INil | ICons (i : item) (r : items)
with item := IText (n : Z) | IDefine (id : Z) (b : option Z) | IUndef (id : Z)
           | IGroup (c : cnd) (body : items) (rest : tail)
with tail := TEndif | TElse (body : items) | TElif (c : pexp) (body : items) (rest : tail).

Scheme items_mut := Induction for items Sort Prop
  with item_mut := Induction for item Sort Prop
  with tail_mut := Induction for tail Sort Prop.
Combined Scheme items_all from items_mut, item_mut, tail_mut.

(** How a group is written. *)
Fixpoint lines_of (t : items) : list pline :=
  match t with INil => [] | ICons i r => item_lines i ++ lines_of r end
with item_lines (i : item) : list pline :=
  match i with
  | IText n => [LText n] | IDefine id b => [LDefine id b] | IUndef id => [LUndef id]
  | IGroup c b r => (match c with CIfdef id => LIfdef id | CIfndef id => LIfndef id | CIf e => LIf e end)
                    :: lines_of b ++ tail_lines r
  end
with tail_lines (t : tail) : list pline :=
  match t with
  | TEndif => [LEndif]
  | TElse b => LElse :: lines_of b ++ [LEndif]
  | TElif c b r => LElif c :: lines_of b ++ tail_lines r
  end.

(** The C constant expression a condition stands for, macros replaced. *)
Fixpoint expand (env : menv) (p : pexp) : option kexp :=
  match p with
  | PInt z => Some (KInt INTEGER z)
  | PChar z => Some (KChar z)
  | PName id => match env id with None => Some (KName id) | Some None => None | Some (Some z) => Some (KInt INTEGER z) end
  | PDefined id => Some (KDefined (match env id with Some _ => true | None => false end))
  | PParen e => option_map KParen (expand env e)
  | PUn o e => option_map (KUn o) (expand env e)
  | PBin o a b => m2 (KBin o) (expand env a) (expand env b)
  | PAnd a b => m2 KAnd (expand env a) (expand env b)
  | POr a b => m2 KOr (expand env a) (expand env b)
  | PCond c a b => match expand env c with Some x => m2 (KCond x) (expand env a) (expand env b) | None => None end
  end.
(** Its C value. *)
Definition pval (env : menv) (p : pexp) : option Z :=
  match expand env p with Some k => kval k | None => None end.
Definition holds (env : menv) (p : pexp) : bool :=
  match pval env p with Some v => negb (v =? 0) | None => false end.
Definition cholds (env : menv) (c : cnd) : bool :=
  match c with
  | CIfdef id => match env id with Some _ => true | None => false end
  | CIfndef id => match env id with Some _ => false | None => true end
  | CIf p => holds env p
  end.

(** The text lines C keeps, and the macros defined afterwards: of each group exactly the first part whose
    condition holds is processed, with the macros defined at that point. *)
Fixpoint sel (env : menv) (t : items) : list Z * menv :=
  match t with
  | INil => ([], env)
  | ICons i r => let (o1, env1) := sel_item env i in let (o2, env2) := sel env1 r in (o1 ++ o2, env2)
  end
with sel_item (env : menv) (i : item) : list Z * menv :=
  match i with
  | IText n => ([n], env)
  | IDefine id b => ([], fun j => if j =? id then Some b else env j)
  | IUndef id => ([], fun j => if j =? id then None else env j)
  | IGroup c b r => if cholds env c then sel env b else sel_tail env r
  end
with sel_tail (env : menv) (t : tail) : list Z * menv :=
  match t with
  | TEndif => ([], env)
  | TElse b => sel env b
  | TElif c b r => if holds env c then sel env b else sel_tail env r
  end.

(** Conditions pnut can evaluate: literals are nonnegative, the C value exists, and && and || yield 0 or 1
    wherever more than the truth of the result matters. *)
Definition cond_fine (env : menv) (p : pexp) : Prop :=
  exists k v, expand env p = Some k /\ wf true k /\ ok true k /\ kval k = Some v.
Definition cnd_fine (env : menv) (c : cnd) : Prop :=
  match c with CIf p => cond_fine env p | _ => True end.

(** pnut evaluates every condition, also those of skipped groups and after the taken part: all of them must
    be fine, with the macros defined when they are met ([on]: is the surrounding part processed?). *)
Fixpoint fine (on : bool) (env : menv) (t : items) : Prop :=
  match t with
  | INil => True
  | ICons i r => fine_item on env i /\ fine on (if on then snd (sel_item env i) else env) r
  end
with fine_item (on : bool) (env : menv) (i : item) : Prop :=
  match i with
  | IGroup c b r =>
      cnd_fine env c /\ fine (on && cholds env c) env b /\
      fine_tail on (cholds env c) (if on && cholds env c then snd (sel env b) else env) r
  | _ => True
  end
with fine_tail (on taken : bool) (env : menv) (t : tail) : Prop :=
  match t with
  | TEndif => True
  | TElse b => fine (on && negb taken) env b
  | TElif c b r =>
      let here := on && negb taken && holds env c in
      cond_fine env c /\ fine here env b /\
      fine_tail on (taken || holds env c) (if here then snd (sel env b) else env) r
  end.

(** Nesting depth of groups. *)
Fixpoint depth (t : items) : Z :=
  match t with INil => 0 | ICons i r => Z.max (depth_item i) (depth r) end
with depth_item (i : item) : Z :=
  match i with IGroup _ b r => 1 + Z.max (depth b) (depth_tail r) | _ => 0 end
with depth_tail (t : tail) : Z :=
  match t with TEndif => 0 | TElse b => depth b | TElif _ b r => Z.max (depth b) (depth_tail r) end.

(** ** Proofs *)
Lemma cond_ast_expand env p k : expand env p = Some k -> cond_ast env p = Some (enc k).
Proof.
  revert k. induction p as [z|z|id|id|e IH|o e IH|o a IHa b IHb|a IHa b IHb|a IHa b IHb|c IHc a IHa b IHb];
    intros k H; cbn [expand cond_ast] in *.
  - now injection H as <-.
  - now injection H as <-.
  - destruct (env id) as [[z|]|]; [|discriminate|]; now injection H as <-.
  - injection H as <-. unfold is_macro. now destruct (env id).
  - destruct (expand env e) as [k1|]; [|discriminate]. injection H as <-. now rewrite (IH k1 eq_refl).
  - destruct (expand env e) as [k1|]; [|discriminate]. injection H as <-. now rewrite (IH k1 eq_refl).
  - destruct (expand env a) as [k1|]; [|discriminate]. destruct (expand env b) as [k2|]; [|discriminate].
    injection H as <-. now rewrite (IHa k1 eq_refl), (IHb k2 eq_refl).
  - destruct (expand env a) as [k1|]; [|discriminate]. destruct (expand env b) as [k2|]; [|discriminate].
    injection H as <-. now rewrite (IHa k1 eq_refl), (IHb k2 eq_refl).
  - destruct (expand env a) as [k1|]; [|discriminate]. destruct (expand env b) as [k2|]; [|discriminate].
    injection H as <-. now rewrite (IHa k1 eq_refl), (IHb k2 eq_refl).
  - destruct (expand env c) as [k0|]; [|discriminate].
    destruct (expand env a) as [k1|]; [|discriminate]. destruct (expand env b) as [k2|]; [|discriminate].
    injection H as <-. now rewrite (IHc k0 eq_refl), (IHa k1 eq_refl), (IHb k2 eq_refl).
Qed.

Lemma cond_fine_eval env p : cond_fine env p ->
  exists v, evaluate_if_condition env p = Some v /\ negb (v =? 0) = holds env p.
Proof.
  intros (k & v & Ek & Hw & Hok & Hv). unfold evaluate_if_condition. rewrite (cond_ast_expand _ _ _ Ek).
  destruct (eval_agrees true k true v Hw Hok Hv) as (r & E & Ha). exists r. split; [exact E|].
  unfold holds, pval. rewrite Ek, Hv. now rewrite Ha.
Qed.

Lemma do_lines_app s l1 l2 : do_lines s (l1 ++ l2) =
  match do_lines s l1 with
  | Some (s1, o1) => match do_lines s1 l2 with Some (s2, o2) => Some (s2, o1 ++ o2) | None => None end
  | None => None
  end.
Proof.
  revert s. induction l1 as [|l r IH]; intros s; cbn [do_lines app].
  - destruct (do_lines s l2) as [[? ?]|]; reflexivity.
  - destruct (do_line s l) as [[s1 o1]|]; [|reflexivity]. rewrite IH.
    destruct (do_lines s1 r) as [[s2 o2]|]; [|reflexivity].
    destruct (do_lines s2 l2) as [[s3 o3]|]; [|reflexivity]. now rewrite app_assoc.
Qed.

(** Stacks equal below an index. *)
Definition same_below (n : Z) (a b : Z -> bool) : Prop := forall i, i < n -> a i = b i.

(** What a group leaves: everything but the cells above the stack index and the macros. *)
Definition restored (s s' : pst) (env' : menv) : Prop :=
  mask s' = mask s /\ executed s' = executed s /\ six s' = six s /\
  same_below (six s) (stk s') (stk s) /\ penv s' = env'.

Definition out_of (on : bool) (env : menv) (r : list Z * menv) : list Z * menv :=
  if on then r else ([], env).

Lemma depth_nonneg t : 0 <= depth t.
Proof.
  revert t. apply (items_mut (fun t => 0 <= depth t) (fun i => 0 <= depth_item i) (fun t => 0 <= depth_tail t));
    intros; cbn [depth depth_item depth_tail]; lia.
Qed.

Lemma group_sound :
  (forall t s, fine (mask s) (penv s) t -> 0 <= six s -> six s + 2 * depth t <= IFDEF_DEPTH_MAX ->
     exists s', do_lines s (lines_of t) = Some (s', fst (out_of (mask s) (penv s) (sel (penv s) t))) /\
                restored s s' (snd (out_of (mask s) (penv s) (sel (penv s) t)))) /\
  (forall i s, fine_item (mask s) (penv s) i -> 0 <= six s -> six s + 2 * depth_item i <= IFDEF_DEPTH_MAX ->
     exists s', do_lines s (item_lines i) = Some (s', fst (out_of (mask s) (penv s) (sel_item (penv s) i))) /\
                restored s s' (snd (out_of (mask s) (penv s) (sel_item (penv s) i)))) /\
  (forall t s taken, 2 <= six s -> six s + 2 * depth_tail t <= IFDEF_DEPTH_MAX ->
     (* [s] is inside a group whose parent is [on]; [taken]: a previous part was processed *)
     let on := stk s (six s - 2) in
     (on = true -> executed s = taken) -> (on = false -> executed s = false) ->
     fine_tail on taken (penv s) t ->
     let r := if taken then ([], penv s) else out_of on (penv s) (sel_tail (penv s) t) in
     exists s', do_lines s (tail_lines t) = Some (s', fst r) /\
       mask s' = on /\ executed s' = stk s (six s - 1) /\ six s' = six s - 2 /\
       same_below (six s - 2) (stk s') (stk s) /\ penv s' = snd r).
Proof.
  apply items_all.
  - (* INil *) intros s _ _ _. exists s. cbn [lines_of do_lines sel].
    unfold out_of, restored, same_below. destruct (mask s) eqn:E; cbn; rewrite ?E; repeat split; auto.
  - (* ICons *) intros i IHi r IHr s Hf H0 Hd. cbn [fine] in Hf. destruct Hf as [Hfi Hfr].
    cbn [depth] in Hd.
    destruct (IHi s Hfi H0) as (s1 & E1 & M1 & X1 & I1 & S1 & V1); [lia|].
    assert (Hpe : penv s1 = if mask s then snd (sel_item (penv s) i) else penv s).
    { rewrite V1. unfold out_of. now destruct (mask s). }
    destruct (IHr s1) as (s2 & E2 & M2 & X2 & I2 & S2 & V2).
    { rewrite M1, Hpe. exact Hfr. } { lia. } { lia. }
    exists s2. cbn [lines_of]. rewrite do_lines_app, E1, E2. cbn [sel].
    assert (Hr : out_of (mask s) (penv s) (let (o1, env1) := sel_item (penv s) i in let (o2, env2) := sel env1 r in (o1 ++ o2, env2))
      = (fst (out_of (mask s) (penv s) (sel_item (penv s) i)) ++ fst (out_of (mask s1) (penv s1) (sel (penv s1) r)),
         snd (out_of (mask s1) (penv s1) (sel (penv s1) r)))).
    { rewrite M1, Hpe. unfold out_of. destruct (mask s); [|reflexivity].
      destruct (sel_item (penv s) i) as [o1 e1]. cbn [fst snd]. now destruct (sel e1 r). }
    rewrite Hr. cbn [fst snd]. split; [reflexivity|].
    unfold restored. rewrite M2, X2, I2, V2, M1, X1, I1. repeat split.
    intros j Hj. rewrite S2 by lia. apply S1; lia.
  - intros n s _ _ _. exists s. cbn [item_lines do_lines do_line sel_item].
    unfold out_of, restored, same_below. destruct (mask s) eqn:E; cbn; rewrite ?E; repeat split; auto.
  - intros id b s _ _ _. cbn [item_lines do_lines do_line sel_item].
    unfold out_of, restored, same_below. destruct (mask s) eqn:E.
    + exists (PS true (executed s) (stk s) (six s) (mset (penv s) id (Some b))).
      cbn; rewrite ?E; repeat split; auto.
    + exists s. cbn. repeat split; auto.
  - intros id s _ _ _. cbn [item_lines do_lines do_line sel_item].
    unfold out_of, restored, same_below. destruct (mask s) eqn:E.
    + exists (PS true (executed s) (stk s) (six s) (mset (penv s) id None)).
      cbn; rewrite ?E; repeat split; auto.
    + exists s. cbn. repeat split; auto.
  - (* IGroup *) intros c b IHb r IHr s Hf H0 Hd.
    cbn [fine_item] in Hf. destruct Hf as (Hc & Hfb & Hft). cbn [depth_item] in Hd.
    set (h := cholds (penv s) c) in *.
    set (s0 := PS (mask s && h) (mask s && h) (aset (aset (stk s) (six s) (mask s)) (six s + 1) (executed s))
                  (six s + 2) (penv s)).
    assert (Hpush : push_if_macro_mask s h = Some s0).
    { unfold push_if_macro_mask. destruct (Z.leb_spec IFDEF_DEPTH_MAX (six s)); [|reflexivity].
      pose proof (depth_nonneg b). lia. }
    assert (Eopen : do_line s (match c with CIfdef id => LIfdef id | CIfndef id => LIfndef id | CIf e => LIf e end)
                    = Some (s0, [])).
    { destruct c as [id|id|p]; cbn [do_line].
      - change h with (is_macro (penv s) id) in Hpush. now rewrite Hpush.
      - assert (negb (is_macro (penv s) id) = h) as -> by (unfold h, is_macro; cbn; now destruct (penv s id)).
        now rewrite Hpush.
      - destruct (cond_fine_eval _ _ Hc) as (v & -> & Hv). rewrite Hv. change (holds (penv s) p) with h.
        now rewrite Hpush. }
    destruct (IHb s0) as (s1 & E1 & M1 & X1 & I1 & S1 & V1); cbn [mask penv six s0]; [exact Hfb|lia|lia|].
    cbn [mask penv six executed stk s0] in *.
    destruct (IHr s1 h) as (s2 & E2 & M2 & X2 & I2 & S2 & V2).
    { lia. } { lia. }
    { intros Hon. rewrite X1. rewrite S1 in Hon by lia. unfold aset in Hon.
      replace (six s1 - 2 =? six s + 1) with false in Hon by (symmetry; apply Z.eqb_neq; lia).
      replace (six s1 - 2 =? six s) with true in Hon by (symmetry; apply Z.eqb_eq; lia).
      now rewrite Hon. }
    { intros Hon. rewrite X1. rewrite S1 in Hon by lia. unfold aset in Hon.
      replace (six s1 - 2 =? six s + 1) with false in Hon by (symmetry; apply Z.eqb_neq; lia).
      replace (six s1 - 2 =? six s) with true in Hon by (symmetry; apply Z.eqb_eq; lia).
      now rewrite Hon. }
    { rewrite S1 by lia. unfold aset.
      replace (six s1 - 2 =? six s + 1) with false by (symmetry; apply Z.eqb_neq; lia).
      replace (six s1 - 2 =? six s) with true by (symmetry; apply Z.eqb_eq; lia).
      rewrite V1. unfold out_of. destruct (mask s && h); exact Hft. }
    assert (Hon : stk s1 (six s1 - 2) = mask s).
    { rewrite S1 by lia. unfold aset.
      replace (six s1 - 2 =? six s + 1) with false by (symmetry; apply Z.eqb_neq; lia).
      now replace (six s1 - 2 =? six s) with true by (symmetry; apply Z.eqb_eq; lia). }
    assert (Hex : stk s1 (six s1 - 1) = executed s).
    { rewrite S1 by lia. unfold aset.
      now replace (six s1 - 1 =? six s + 1) with true by (symmetry; apply Z.eqb_eq; lia). }
    rewrite Hon in *. rewrite Hex in *.
    exists s2. cbn [item_lines do_lines]. rewrite Eopen, do_lines_app, E1, E2. cbn [app].
    assert (Hr : out_of (mask s) (penv s) (sel_item (penv s) (IGroup c b r)) =
      (fst (out_of (mask s && h) (penv s) (sel (penv s) b)) ++
       fst (if h then ([], penv s1) else out_of (mask s) (penv s1) (sel_tail (penv s1) r)),
       snd (if h then ([], penv s1) else out_of (mask s) (penv s1) (sel_tail (penv s1) r)))).
    { cbn [sel_item]. fold h. rewrite V1. unfold out_of. destruct (mask s), h; cbn [andb fst snd app].
      - rewrite app_nil_r. now destruct (sel (penv s) b).
      - now destruct (sel_tail (penv s) r).
      - reflexivity.
      - reflexivity. }
    rewrite Hr. cbn [fst snd]. split; [reflexivity|].
    unfold restored. rewrite M2, X2, I2, V2. repeat split; [lia|].
    intros j Hj. rewrite S2 by lia. rewrite S1 by lia. unfold aset.
    replace (j =? six s + 1) with false by (symmetry; apply Z.eqb_neq; lia).
    now replace (j =? six s) with false by (symmetry; apply Z.eqb_neq; lia).
  - (* TEndif *) intros s taken H2 Hd on Ht Hf _ r. cbn [tail_lines do_lines do_line].
    assert (Er : r = ([], penv s)) by (unfold r, out_of; cbn [sel_tail]; now destruct taken, on).
    rewrite Er. cbn [fst snd].
    unfold pop_if_macro_mask. destruct (Z.eqb_spec (six s) 0); [lia|]. cbn [option_map].
    eexists. split; [reflexivity|cbn [mask executed six stk penv]; repeat split].
    f_equal. lia.
  - (* TElse *) intros b IHb s taken H2 Hd on Ht Hf Hfine r. cbn [fine_tail] in Hfine.
    cbn [depth_tail] in Hd.
    set (s0 := if on then PS (negb (executed s)) true (stk s) (six s) (penv s)
               else PS false (executed s) (stk s) (six s) (penv s)).
    assert (Epm : prev_macro_mask s = on).
    { unfold prev_macro_mask. destruct (Z.eqb_spec (six s) 0); [lia|reflexivity]. }
    assert (M0 : mask s0 = on && negb taken).
    { unfold s0. destruct on; [|reflexivity]. cbn. now rewrite Ht. }
    assert (P0 : penv s0 = penv s) by (unfold s0; now destruct on).
    assert (I0 : six s0 = six s) by (unfold s0; now destruct on).
    assert (K0 : stk s0 = stk s) by (unfold s0; now destruct on).
    destruct (IHb s0) as (s1 & E1 & M1 & X1 & I1 & S1 & V1).
    { rewrite M0, P0. exact Hfine. } { lia. } { lia. }
    cbn [tail_lines do_lines do_line]. rewrite Epm. change (if on then _ else _) with s0.
    rewrite do_lines_app, E1. cbn [do_lines do_line]. unfold pop_if_macro_mask.
    destruct (Z.eqb_spec (six s1) 0); [lia|]. cbn [option_map app].
    rewrite K0, I0 in *.
    assert (Er : fst r = fst (out_of (mask s0) (penv s0) (sel (penv s0) b))).
    { rewrite M0, P0. unfold r, out_of. cbn [sel_tail]. destruct on, taken; reflexivity. }
    rewrite Er, app_nil_r.
    eexists. split; [reflexivity|cbn [mask executed six stk penv]].
    repeat split.
    + rewrite S1 by lia. unfold on. f_equal. lia.
    + rewrite S1 by lia. f_equal. lia.
    + lia.
    + intros j Hj. rewrite S1 by lia. reflexivity.
    + rewrite V1, M0, P0. unfold r, out_of. cbn [sel_tail]. destruct on, taken; reflexivity.
  - (* TElif *) intros c b IHb t IHt s taken H2 Hd on Ht Hf Hfine r. cbn [fine_tail] in Hfine.
    destruct Hfine as (Hc & Hfb & Hft). cbn [depth_tail] in Hd.
    destruct (cond_fine_eval _ _ Hc) as (v & Ev & Hv). set (h := holds (penv s) c) in *.
    set (s0 := if on && negb (executed s) then PS h (executed s || h) (stk s) (six s) (penv s)
               else PS false (executed s) (stk s) (six s) (penv s)).
    assert (Epm : prev_macro_mask s = on).
    { unfold prev_macro_mask. destruct (Z.eqb_spec (six s) 0); [lia|reflexivity]. }
    assert (P0 : penv s0 = penv s) by (unfold s0; now destruct (on && negb (executed s))).
    assert (I0 : six s0 = six s) by (unfold s0; now destruct (on && negb (executed s))).
    assert (K0 : stk s0 = stk s) by (unfold s0; now destruct (on && negb (executed s))).
    assert (M0 : mask s0 = on && negb taken && h).
    { unfold s0. destruct on; cbn [andb].
      - rewrite Ht by reflexivity. destruct taken; reflexivity.
      - reflexivity. }
    assert (X0 : executed s0 = if on then taken || h else false).
    { unfold s0. destruct on; cbn [andb].
      - rewrite Ht by reflexivity. destruct taken; reflexivity.
      - cbn. now apply Hf. }
    destruct (IHb s0) as (s1 & E1 & M1 & X1 & I1 & S1 & V1).
    { rewrite M0, P0. exact Hfb. } { lia. } { lia. }
    rewrite K0, I0 in *.
    assert (Hon : stk s1 (six s1 - 2) = on) by (rewrite S1 by lia; unfold on; f_equal; lia).
    destruct (IHt s1 (taken || h)) as (s2 & E2 & M2 & X2 & I2 & S2 & V2).
    { lia. } { lia. }
    { rewrite Hon. intros Ho. now rewrite X1, X0, Ho. }
    { rewrite Hon. intros Ho. now rewrite X1, X0, Ho. }
    { rewrite Hon, V1, M0, P0. unfold out_of.
      destruct (on && negb taken && h); exact Hft. }
    rewrite Hon in *.
    cbn [tail_lines do_lines do_line]. rewrite Ev, Hv, Epm. change (if on && _ then _ else _) with s0.
    rewrite do_lines_app, E1, E2. cbn [app].
    exists s2. split; [|repeat split].
    + f_equal. f_equal. rewrite M0, V1, M0, P0. unfold r, out_of. cbn [sel_tail]. fold h.
      destruct on, taken, h; cbn [andb negb orb fst snd app]; rewrite ?app_nil_r; reflexivity.
    + exact M2.
    + rewrite X2. rewrite S1 by lia. f_equal. lia.
    + lia.
    + intros j Hj. rewrite S2 by lia. apply S1; lia.
    + rewrite V2, V1, M0, P0. unfold r, out_of. cbn [sel_tail]. fold h.
      destruct on, taken, h; cbn [andb negb orb fst snd app]; reflexivity.
Qed.
