(** * Constant expressions: eval_constant (pnut.c:1282-1401) *)
From Coq Require Import ZArith List Lia Bool.
From Verif Require Import Base Ast.
Import ListNotations.
Open Scope Z_scope.

(** Host [int] arithmetic: [None] is undefined behaviour of the host program. *)
Definition chk (z : Z) : option Z := if in_intb z then Some z else None.

(** Result of the host's binary operators on ints (pnut.c:1352-1366). *)
Definition host_bin (op a b : Z) : option Z :=
  if op =? STAR then chk (a * b)
  else if op =? SLASHC then if b =? 0 then None else chk (Z.quot a b)
  else if op =? PERCENT then if b =? 0 then None
                             else match chk (Z.quot a b) with Some _ => Some (Z.rem a b) | None => None end
  else if op =? AMP then Some (Z.land a b)
  else if op =? BAR then Some (Z.lor a b)
  else if op =? CARET then Some (Z.lxor a b)
  else if op =? LSHIFT then
    if (0 <=? a) && (0 <=? b) && (b <? 32) then chk (Z.shiftl a b) else None
  else if op =? RSHIFT then
    if (0 <=? b) && (b <? 32) then Some (Z.shiftr a b) else None
  else if op =? EQ_EQ then Some (Z.b2z (a =? b))
  else if op =? EXCL_EQ then Some (Z.b2z (negb (a =? b)))
  else if op =? LT_EQ then Some (Z.b2z (a <=? b))
  else if op =? GT_EQ then Some (Z.b2z (b <=? a))
  else if op =? LT then Some (Z.b2z (a <? b))
  else if op =? GT then Some (Z.b2z (b <? a))
  else None.

Definition is_plain_binop (op : Z) : bool :=
  (op =? STAR) || (op =? SLASHC) || (op =? PERCENT) || (op =? AMP) || (op =? BAR) || (op =? CARET) ||
  (op =? LSHIFT) || (op =? RSHIFT) || (op =? EQ_EQ) || (op =? EXCL_EQ) || (op =? LT_EQ) ||
  (op =? GT_EQ) || (op =? LT) || (op =? GT).

(** The symbol of the identifier [defined] (pnut.c init_ident_table); any fixed number will do. *)
Definition DEFINED_ID := -7.

(** pnut.c:1282-1401 [eval_constant].  [None]: fatal_error, or undefined behaviour of the host.
    The 64-bit variant's extra check (positive val = large literal) is included. *)
Fixpoint eval_constant (if_macro : bool) (e : ast) : option Z :=
  match e with
  | Raw _ => None
  | Node op v kids =>
      if is_integer_tok op then if 0 <? v then None else Some (- v)
      else if op =? CHARACTER then Some v
      else if op =? IDENTIFIER then if if_macro then Some 0 else None
      else match kids with
      | [a] =>
          if op =? PARENS then eval_constant if_macro a
          else if op =? TILDE then match eval_constant if_macro a with Some x => Some (Z.lnot x) | None => None end
          else if op =? EXCL then match eval_constant if_macro a with Some x => Some (Z.b2z (x =? 0)) | None => None end
          else if op =? MINUS then match eval_constant if_macro a with Some x => chk (- x) | None => None end
          else if op =? PLUS then eval_constant if_macro a
          else None
      | [a; b] =>
          if (op =? MINUS) || (op =? PLUS) then
            match eval_constant if_macro a with
            | Some x => match eval_constant if_macro b with
                        | Some y => chk (if op =? MINUS then x - y else x + y)
                        | None => None
                        end
            | None => None
            end
          else if is_plain_binop op then
            match eval_constant if_macro a with
            | Some x => match eval_constant if_macro b with
                        | Some y => host_bin op x y
                        | None => None
                        end
            | None => None
            end
          else if op =? AMP_AMP then
            match eval_constant if_macro a with
            | Some x => if x =? 0 then Some 0 else eval_constant if_macro b
            | None => None
            end
          else if op =? BAR_BAR then
            match eval_constant if_macro a with
            | Some x => if x =? 0 then eval_constant if_macro b else Some 1
            | None => None
            end
          else if op =? LPAR then
            match a, b with
            | Node o id [], Raw t => if if_macro && (o =? IDENTIFIER) && (id =? DEFINED_ID)
                                     then Some (Z.b2z (t =? MACRO)) else None
            | _, _ => None
            end
          else None
      | [a; b; c] =>
          if op =? QUEST then
            match eval_constant if_macro a with
            | Some x => if x =? 0 then eval_constant if_macro c else eval_constant if_macro b
            | None => None
            end
          else None
      | _ => None
      end
  end.

(** ** Specification: constant expressions of C with values of type int (C11 6.5, 6.6) *)
Inductive kun := KNeg | KPlus | KCompl | KNot.
Inductive kbin := KMul | KDiv | KMod | KAdd | KSub | KShl | KShr | KLt | KGt | KLe | KGe | KEq | KNe
                | KBand | KBxor | KBor.
Inductive kexp :=
| KInt (t z : Z) (* [t]: how the literal is written, e.g. INTEGER_HEX *) | KChar (z : Z) | KName (id : Z) | KDefined (is_macro : bool)
| KParen (e : kexp) | KUn (o : kun) (e : kexp) | KBin (o : kbin) (a b : kexp)
| KAnd (a b : kexp) | KOr (a b : kexp) | KCond (c a b : kexp).

(** Results outside the range of int, division by zero and bad shifts are undefined. *)
Definition ranged (z : Z) : option Z := if in_intb z then Some z else None.

Definition kun_val (o : kun) (a : Z) : option Z :=
  match o with
  | KNeg => ranged (- a)
  | KPlus => Some a
  | KCompl => Some (- a - 1)
  | KNot => Some (if a =? 0 then 1 else 0)
  end.

Definition kbin_val (o : kbin) (a b : Z) : option Z :=
  let truth (c : bool) := Some (if c then 1 else 0) in
  match o with
  | KMul => ranged (a * b)
  | KAdd => ranged (a + b)
  | KSub => ranged (a - b)
  (* C: (a/b)*b + a%b = a, quotient truncated towards zero, both undefined if a/b overflows *)
  | KDiv => if b =? 0 then None else ranged (Z.sgn a * Z.sgn b * (Z.abs a / Z.abs b))
  | KMod => if b =? 0 then None
            else match ranged (Z.sgn a * Z.sgn b * (Z.abs a / Z.abs b)) with
                 | Some q => Some (a - q * b)
                 | None => None
                 end
  | KShl => if (a <? 0) || (b <? 0) || (32 <=? b) then None else ranged (a * 2 ^ b)
  | KShr => if (b <? 0) || (32 <=? b) then None else Some (a / 2 ^ b)
  | KLt => truth (a <? b) | KGt => truth (b <? a) | KLe => truth (a <=? b) | KGe => truth (b <=? a)
  | KEq => truth (a =? b) | KNe => truth (negb (a =? b))
  | KBand => Some (Z.land a b) | KBxor => Some (Z.lxor a b) | KBor => Some (Z.lor a b)
  end.

Fixpoint kval (e : kexp) : option Z :=
  match e with
  | KInt _ z => ranged z
  | KChar z => Some z
  | KName _ => Some 0       (* in #if, an identifier that is not a macro is 0 *)
  | KDefined m => Some (if m then 1 else 0)
  | KParen e => kval e
  | KUn o a => match kval a with Some x => kun_val o x | None => None end
  | KBin o a b => match kval a, kval b with Some x, Some y => kbin_val o x y | _, _ => None end
  | KAnd a b => match kval a with
                | Some x => if x =? 0 then Some 0
                            else match kval b with Some y => Some (if y =? 0 then 0 else 1) | None => None end
                | None => None
                end
  | KOr a b => match kval a with
               | Some x => if x =? 0
                           then match kval b with Some y => Some (if y =? 0 then 0 else 1) | None => None end
                           else Some 1
               | None => None
               end
  | KCond c a b => match kval c with
                   | Some x => if x =? 0 then kval b else kval a
                   | None => None
                   end
  end.

(** The tree the parser builds (see [Parser]). *)
Definition kun_tok (o : kun) : Z := match o with KNeg => MINUS | KPlus => PLUS | KCompl => TILDE | KNot => EXCL end.
Definition kbin_tok (o : kbin) : Z :=
  match o with
  | KMul => STAR | KDiv => SLASHC | KMod => PERCENT | KAdd => PLUS | KSub => MINUS
  | KShl => LSHIFT | KShr => RSHIFT | KLt => LT | KGt => GT | KLe => LT_EQ | KGe => GT_EQ
  | KEq => EQ_EQ | KNe => EXCL_EQ | KBand => AMP | KBxor => CARET | KBor => BAR
  end.
Fixpoint enc (e : kexp) : ast :=
  match e with
  | KInt t z => Node t (- z) []
  | KChar z => Node CHARACTER z []
  | KName id => Node IDENTIFIER id []
  | KDefined m => Node LPAR 0 [Node IDENTIFIER DEFINED_ID []; Raw (if m then MACRO else IDENTIFIER)]
  | KParen e => Node PARENS 0 [enc e]
  | KUn o a => Node (kun_tok o) 0 [enc a]
  | KBin o a b => Node (kbin_tok o) 0 [enc a; enc b]
  | KAnd a b => Node AMP_AMP 0 [enc a; enc b]
  | KOr a b => Node BAR_BAR 0 [enc a; enc b]
  | KCond c a b => Node QUEST 0 [enc c; enc a; enc b]
  end.

(** Literals are written as nonnegative ints; identifiers and [defined] occur in #if only. *)
Fixpoint wf (if_macro : bool) (e : kexp) : Prop :=
  match e with
  | KInt t z => is_integer_tok t = true /\ 0 <= z
  | KChar _ => True
  | KName _ | KDefined _ => if_macro = true
  | KParen e => wf if_macro e
  | KUn _ a => wf if_macro a
  | KBin _ a b | KAnd a b | KOr a b => wf if_macro a /\ wf if_macro b
  | KCond c a b => wf if_macro c /\ wf if_macro a /\ wf if_macro b
  end.

(** Expressions whose right operands of && and || are 0 or 1 wherever the value, not just the truth,
    matters: [val_ok e] for value positions, [tr_ok e] for truth positions. *)
Fixpoint ok (truth : bool) (e : kexp) : Prop :=
  match e with
  | KInt _ _ | KChar _ | KName _ | KDefined _ => True
  | KParen e => ok truth e
  | KUn KNot a => ok true a
  | KUn _ a => ok false a
  | KBin _ a b => ok false a /\ ok false b
  | KAnd a b | KOr a b =>
      ok true a /\ ok truth b /\ (truth = false -> forall v, kval b = Some v -> v = 0 \/ v = 1)
  | KCond c a b => ok true c /\ ok truth a /\ ok truth b
  end.

(** ** Proofs *)
Lemma quot_sgn a b : b <> 0 -> Z.sgn a * Z.sgn b * (Z.abs a / Z.abs b) = Z.quot a b.
Proof. intros. symmetry. rewrite Z.quot_div by assumption. ring. Qed.


Lemma hb_mul a b : host_bin STAR a b = chk (a * b). Proof. reflexivity. Qed.
Lemma hb_div a b : host_bin SLASHC a b = if b =? 0 then None else chk (Z.quot a b). Proof. reflexivity. Qed.
Lemma hb_mod a b : host_bin PERCENT a b = if b =? 0 then None
   else match chk (Z.quot a b) with Some _ => Some (Z.rem a b) | None => None end. Proof. reflexivity. Qed.
Lemma hb_and a b : host_bin AMP a b = Some (Z.land a b). Proof. reflexivity. Qed.
Lemma hb_or a b : host_bin BAR a b = Some (Z.lor a b). Proof. reflexivity. Qed.
Lemma hb_xor a b : host_bin CARET a b = Some (Z.lxor a b). Proof. reflexivity. Qed.
Lemma hb_shl a b : host_bin LSHIFT a b =
  if (0 <=? a) && (0 <=? b) && (b <? 32) then chk (Z.shiftl a b) else None. Proof. reflexivity. Qed.
Lemma hb_shr a b : host_bin RSHIFT a b = if (0 <=? b) && (b <? 32) then Some (Z.shiftr a b) else None.
Proof. reflexivity. Qed.
Lemma hb_eq a b : host_bin EQ_EQ a b = Some (Z.b2z (a =? b)). Proof. reflexivity. Qed.
Lemma hb_ne a b : host_bin EXCL_EQ a b = Some (Z.b2z (negb (a =? b))). Proof. reflexivity. Qed.
Lemma hb_le a b : host_bin LT_EQ a b = Some (Z.b2z (a <=? b)). Proof. reflexivity. Qed.
Lemma hb_ge a b : host_bin GT_EQ a b = Some (Z.b2z (b <=? a)). Proof. reflexivity. Qed.
Lemma hb_lt a b : host_bin LT a b = Some (Z.b2z (a <? b)). Proof. reflexivity. Qed.
Lemma hb_gt a b : host_bin GT a b = Some (Z.b2z (b <? a)). Proof. reflexivity. Qed.

Lemma host_bin_ok o a b v : o <> KAdd -> o <> KSub ->
  kbin_val o a b = Some v -> host_bin (kbin_tok o) a b = Some v.
Proof.
  intros H1 H2. destruct o; [| | |now elim H1|now elim H2| | | | | | | | | | |]; cbn [kbin_val kbin_tok]; intros H;
    rewrite ?hb_mul, ?hb_div, ?hb_mod, ?hb_and, ?hb_or, ?hb_xor, ?hb_shl, ?hb_shr, ?hb_eq, ?hb_ne, ?hb_le,
            ?hb_ge, ?hb_lt, ?hb_gt.
  - exact H.
  - destruct (Z.eqb_spec b 0); [discriminate|]. now rewrite quot_sgn in H by assumption.
  - destruct (Z.eqb_spec b 0); [discriminate|]. rewrite quot_sgn in H by assumption.
    unfold ranged, chk in *. destruct (in_intb (Z.quot a b)); [|discriminate]. rewrite <- H. f_equal.
    pose proof (Z.quot_rem' a b). lia.
  - destruct (Z.ltb_spec a 0); [discriminate|]. destruct (Z.ltb_spec b 0); [discriminate|].
    destruct (Z.leb_spec 32 b); [discriminate|]. cbn [orb] in H.
    destruct (Z.leb_spec 0 a); [|lia]. destruct (Z.leb_spec 0 b); [|lia]. destruct (Z.ltb_spec b 32); [|lia].
    cbn [andb]. rewrite Z.shiftl_mul_pow2 by lia. exact H.
  - destruct (Z.ltb_spec b 0); [discriminate|].
    destruct (Z.leb_spec 32 b); [discriminate|]. cbn [orb] in H.
    destruct (Z.leb_spec 0 b); [|lia]. destruct (Z.ltb_spec b 32); [|lia].
    cbn [andb]. rewrite Z.shiftr_div_pow2 by lia. exact H.
  - rewrite <- H. now destruct (a <? b).
  - rewrite <- H. now destruct (b <? a).
  - rewrite <- H. now destruct (a <=? b).
  - rewrite <- H. now destruct (b <=? a).
  - rewrite <- H. now destruct (a =? b).
  - rewrite <- H. now destruct (a =? b).
  - exact H.
  - exact H.
  - exact H.
Qed.

(** Unfolding equations of [eval_constant] at the trees [enc] builds. *)
Lemma ev_int m t v : is_integer_tok t = true ->
  eval_constant m (Node t v []) = if 0 <? v then None else Some (- v).
Proof. intros H. cbn [eval_constant]. now rewrite H. Qed.
Lemma ev_un m o a : eval_constant m (Node (kun_tok o) 0 [a]) =
  match eval_constant m a with
  | Some x => match o with KNeg => chk (- x) | KPlus => Some x | KCompl => Some (Z.lnot x)
                         | KNot => Some (Z.b2z (x =? 0)) end
  | None => None end.
Proof. destruct o; cbn [kun_tok]; try reflexivity.
  transitivity (eval_constant m a); [reflexivity|]. now destruct (eval_constant m a). Qed.
Lemma ev_addsub m o a b : o = KAdd \/ o = KSub -> eval_constant m (Node (kbin_tok o) 0 [a; b]) =
  match eval_constant m a with
  | Some x => match eval_constant m b with
              | Some y => chk (match o with KSub => x - y | _ => x + y end) | None => None end
  | None => None end.
Proof. intros [->| ->]; reflexivity. Qed.
Lemma ev_bin m o a b : o <> KAdd -> o <> KSub -> eval_constant m (Node (kbin_tok o) 0 [a; b]) =
  match eval_constant m a with
  | Some x => match eval_constant m b with
              | Some y => host_bin (kbin_tok o) x y | None => None end
  | None => None end.
Proof. intros H1 H2. destruct o; [| | |now elim H1|now elim H2| | | | | | | | | | |]; reflexivity. Qed.
Lemma ev_and m a b : eval_constant m (Node AMP_AMP 0 [a; b]) =
  match eval_constant m a with Some x => if x =? 0 then Some 0 else eval_constant m b | None => None end.
Proof. reflexivity. Qed.
Lemma ev_or m a b : eval_constant m (Node BAR_BAR 0 [a; b]) =
  match eval_constant m a with Some x => if x =? 0 then eval_constant m b else Some 1 | None => None end.
Proof. reflexivity. Qed.
Lemma ev_cond m a b c : eval_constant m (Node QUEST 0 [a; b; c]) =
  match eval_constant m a with
  | Some x => if x =? 0 then eval_constant m c else eval_constant m b | None => None end.
Proof. reflexivity. Qed.
Lemma ev_paren m a : eval_constant m (Node PARENS 0 [a]) = eval_constant m a. Proof. reflexivity. Qed.
Lemma ev_name a : eval_constant true (Node IDENTIFIER a []) = Some 0. Proof. reflexivity. Qed.
Lemma ev_char m a : eval_constant m (Node CHARACTER a []) = Some a. Proof. reflexivity. Qed.

(** Agreement of a model value [r] with the C value [v]: equal in value positions, same truth otherwise. *)
Definition agree (truth : bool) (r v : Z) : Prop := if truth then (r =? 0) = (v =? 0) else r = v.
Lemma agree_truth t r v : agree t r v -> (r =? 0) = (v =? 0).
Proof. destruct t; cbn; [auto|]. now intros ->. Qed.
Lemma agree_refl t v : agree t v v. Proof. now destruct t. Qed.

Lemma kbin_case o : o = KAdd \/ o = KSub \/ (o <> KAdd /\ o <> KSub).
Proof. destruct o; (left; reflexivity) || (right; left; reflexivity) || (right; right; split; discriminate). Qed.

Lemma eval_agrees m e : forall t v, wf m e -> ok t e -> kval e = Some v ->
  exists r, eval_constant m (enc e) = Some r /\ agree t r v.
Proof.
  induction e as [tk z|z|id|d|e IH|o e IH|o a IHa b IHb|a IHa b IHb|a IHa b IHb|c IHc a IHa b IHb];
    intros t v Hw Hok Hv; cbn [enc]; cbn [wf] in Hw; cbn [kval] in Hv.
  - destruct Hw as [Htk Hw]. rewrite ev_int by exact Htk. destruct (Z.ltb_spec 0 (- z)); [lia|]. exists (- - z). split; [reflexivity|].
    unfold ranged in Hv. destruct (in_intb z); [|discriminate]. injection Hv as <-.
    rewrite Z.opp_involutive. apply agree_refl.
  - rewrite ev_char. injection Hv as <-. exists z. split; [reflexivity|apply agree_refl].
  - subst m. rewrite ev_name. injection Hv as <-. exists 0. split; [reflexivity|apply agree_refl].
  - subst m. injection Hv as <-. exists (if d then 1 else 0). split; [now destruct d|apply agree_refl].
  - rewrite ev_paren. apply IH; assumption.
  - rewrite ev_un. destruct (kval e) as [x|] eqn:E; [|discriminate].
    destruct o; cbn [ok] in Hok.
    + destruct (IH false x Hw Hok eq_refl) as (r & -> & Hr). cbn in Hr. subst r.
      exists v. split; [exact Hv|apply agree_refl].
    + destruct (IH false x Hw Hok eq_refl) as (r & -> & Hr). cbn in Hr. subst r.
      exists v. split; [exact Hv|apply agree_refl].
    + destruct (IH false x Hw Hok eq_refl) as (r & -> & Hr). cbn in Hr. subst r.
      exists v. split; [|apply agree_refl]. injection Hv as <-. reflexivity.
    + destruct (IH true x Hw Hok eq_refl) as (r & -> & Hr). cbn in Hr.
      exists v. split; [|apply agree_refl]. injection Hv as <-. rewrite Hr. now destruct (x =? 0).
  - destruct Hw as [Hwa Hwb]. destruct Hok as [Ha Hb].
    destruct (kval a) as [x|] eqn:Ea; [|discriminate]. destruct (kval b) as [y|] eqn:Eb; [|discriminate].
    destruct (IHa false x Hwa Ha eq_refl) as (r & Er & Hr). cbn in Hr. subst r.
    destruct (IHb false y Hwb Hb eq_refl) as (r & Er' & Hr). cbn in Hr. subst r.
    exists v. split; [|apply agree_refl].
    destruct (kbin_case o) as [->|[->|[H1 H2]]].
    + rewrite ev_addsub by auto. rewrite Er, Er'. exact Hv.
    + rewrite ev_addsub by auto. rewrite Er, Er'. exact Hv.
    + rewrite ev_bin by assumption. rewrite Er, Er'. now apply host_bin_ok.
  - destruct Hw as [Hwa Hwb]. destruct Hok as (Ha & Hb & H01). rewrite ev_and.
    destruct (kval a) as [x|] eqn:Ea; [|discriminate].
    destruct (IHa true x Hwa Ha eq_refl) as (r & -> & Hr). cbn in Hr. rewrite Hr.
    destruct (x =? 0).
    + injection Hv as <-. exists 0. split; [reflexivity|apply agree_refl].
    + destruct (kval b) as [y|] eqn:Eb; [|discriminate]. injection Hv as <-.
      destruct (IHb t y Hwb Hb eq_refl) as (r' & -> & Hr'). exists r'. split; [reflexivity|].
      destruct t; cbn in *.
      * rewrite Hr'. now destruct (y =? 0).
      * subst r'. destruct (H01 eq_refl y eq_refl) as [->| ->]; reflexivity.
  - destruct Hw as [Hwa Hwb]. destruct Hok as (Ha & Hb & H01). rewrite ev_or.
    destruct (kval a) as [x|] eqn:Ea; [|discriminate].
    destruct (IHa true x Hwa Ha eq_refl) as (r & -> & Hr). cbn in Hr. rewrite Hr.
    destruct (x =? 0).
    + destruct (kval b) as [y|] eqn:Eb; [|discriminate]. injection Hv as <-.
      destruct (IHb t y Hwb Hb eq_refl) as (r' & -> & Hr'). exists r'. split; [reflexivity|].
      destruct t; cbn in *.
      * rewrite Hr'. now destruct (y =? 0).
      * subst r'. destruct (H01 eq_refl y eq_refl) as [->| ->]; reflexivity.
    + injection Hv as <-. exists 1. split; [reflexivity|apply agree_refl].
  - destruct Hw as (Hwc & Hwa & Hwb). destruct Hok as (Hc & Ha & Hb). rewrite ev_cond.
    destruct (kval c) as [x|] eqn:Ec; [|discriminate].
    destruct (IHc true x Hwc Hc eq_refl) as (r & -> & Hr). cbn in Hr. rewrite Hr.
    destruct (x =? 0); [apply IHb|apply IHa]; assumption.
Qed.
