(** * C51: pnut accepts only C (expressions and statements)

    The converse of C14 and C49: what the parser accepts can be derived from the C grammar (Grammar.v,
    GrammarStmt.v), with the tree that the grammar gives.  For tokens without type names and type
    keywords. *)
From Coq Require Import ZArith List Bool Lia.
From Verif Require Import Base Ast EvalConst Parse Grammar ParseStmt GrammarStmt PropParse PropParseStmt.
Import ListNotations.
Open Scope Z_scope.
Local Notation length := List.length.

(** ** What C asks beyond the expression grammar of pnut *)
(* not an operand that only brackets could put to the left of an assignment *)
Definition unary_shaped (e : ast) : bool :=
  match e with
  | Node op _ [_; _] => negb (existsb (Z.eqb op) (CAST :: COMMA :: assign_ops ++ flat_map binops (seq 1 10)))
  | Node op _ [_; _; _] => negb (op =? QUEST)
  | _ => true
  end.
Definition cond_shaped (e : ast) : bool :=
  match e with Node op _ [_; _] => negb (existsb (Z.eqb op) (COMMA :: assign_ops)) | _ => true end.
(* the left side of every assignment is a unary expression (6.5.16), a case label has a conditional expression (6.8.1) *)
Fixpoint c_shaped (e : ast) : bool :=
  match e with
  | Raw _ => true
  | Node op v l =>
      forallb c_shaped l &&
      match l with
      | [a; b] => (if existsb (Z.eqb op) assign_ops then unary_shaped a else true) &&
                  (if op =? CASE_KW then cond_shaped a else true)
      | _ => true
      end
  end.

Section Accept.
Variables (sh : bool) (td : tdm) (join : Z -> Z -> Z).

(** ** The language of the expression parser *)
Inductive ant := APrim | APost | AUnary | ACast | ABin (k : nat) | ACond | AAssign | AExpr | AArgs.
Inductive A : ant -> list token -> ast -> Prop :=
| a_leaf t x : is_leaf t = true -> A APrim [(t, x)] (new_ast0 t x)
| a_string x xs : A APrim ((STRING, x) :: map (fun y => (STRING, y)) xs) (new_ast0 STRING (fold_left join xs x))
| a_paren a ts b e : A AExpr ts e -> A APrim ((LPAR, a) :: ts ++ [(RPAR, b)]) (new_ast1 PARENS e)
| a_post ts e : A APrim ts e -> A APost ts e
| a_index ts e a ts2 e2 b : A APost ts e -> A AExpr ts2 e2 -> A APost (ts ++ (LBRACK, a) :: ts2 ++ [(RBRACK, b)]) (new_ast2 LBRACK e e2)
| a_call0 ts e a b : A APost ts e -> A APost (ts ++ [(LPAR, a); (RPAR, b)]) (new_ast2 LPAR e (Raw 0))
| a_call ts e a ts2 e2 b : A APost ts e -> A AArgs ts2 e2 -> A APost (ts ++ (LPAR, a) :: ts2 ++ [(RPAR, b)]) (new_ast2 LPAR e e2)
| a_dot ts e a x : A APost ts e -> A APost (ts ++ [(DOT, a); (IDENTIFIER, x)]) (new_ast2 DOT e (new_ast0 IDENTIFIER x))
| a_arrow ts e a x : A APost ts e -> A APost (ts ++ [(ARROW, a); (IDENTIFIER, x)]) (new_ast2 ARROW e (new_ast0 IDENTIFIER x))
| a_inc ts e a : A APost ts e -> A APost (ts ++ [(PLUS_PLUS, a)]) (new_ast1 PLUS_PLUS_POST e)
| a_dec ts e a : A APost ts e -> A APost (ts ++ [(MINUS_MINUS, a)]) (new_ast1 MINUS_MINUS_POST e)
| a_arg1 ts e : A AAssign ts e -> A AArgs ts (new_ast2 LIST e (Raw 0))
| a_args ts e a ts2 e2 : A AAssign ts e -> A AArgs ts2 e2 -> A AArgs (ts ++ (COMMA, a) :: ts2) (new_ast2 LIST e e2)
| a_unary ts e : A APost ts e -> A AUnary ts e
| a_preinc a ts e : A AUnary ts e -> A AUnary ((PLUS_PLUS, a) :: ts) (new_ast1 PLUS_PLUS_PRE e)
| a_predec a ts e : A AUnary ts e -> A AUnary ((MINUS_MINUS, a) :: ts) (new_ast1 MINUS_MINUS_PRE e)
| a_unop t a ts e : In t [AMP; STAR; PLUS; MINUS; TILDE; EXCL] -> A ACast ts e -> A AUnary ((t, a) :: ts) (new_ast1 t e)
| a_sizeof a ts e : A AUnary ts e -> A AUnary ((SIZEOF_KW, a) :: ts) (new_ast1 SIZEOF_KW e)
| a_cast0 ts e : A AUnary ts e -> A ACast ts e
| a_bin0 ts e : A ACast ts e -> A (ABin 0) ts e
| a_binS k ts e : A (ABin k) ts e -> A (ABin (S k)) ts e
| a_bin k ts e t a ts2 e2 : (k < 10)%nat -> A (ABin (S k)) ts e -> In t (binops (S k)) -> A (ABin k) ts2 e2 ->
    A (ABin (S k)) (ts ++ (t, a) :: ts2) (new_ast2 t e e2)
| a_cond0 ts e : A (ABin 10) ts e -> A ACond ts e
| a_cond ts e a ts1 e1 b ts2 e2 : A (ABin 10) ts e -> A AExpr ts1 e1 -> A ACond ts2 e2 ->
    A ACond (ts ++ (QUEST, a) :: ts1 ++ (COLON, b) :: ts2) (new_ast3 QUEST e e1 e2)
| a_assign0 ts e : A ACond ts e -> A AAssign ts e
(* the left side is not restricted *)
| a_assign ts e t a ts2 e2 : A ACond ts e -> In t assign_ops -> A AAssign ts2 e2 -> A AAssign (ts ++ (t, a) :: ts2) (new_ast2 t e e2)
| a_expr0 ts e : A AAssign ts e -> A AExpr ts e
| a_comma ts e a ts2 e2 : A AAssign ts e -> A AExpr ts2 e2 -> A AExpr (ts ++ (COMMA, a) :: ts2) (new_ast2 COMMA e e2).

(** ** The parser accepts only that language *)
Definition leads (a : ant) (ts : list token) (e : ast) (r : list token) : Prop := exists p, ts = p ++ r /\ A a p e.
Definition after_ (a : ant) (e0 : ast) (ts : list token) (e : ast) (r : list token) : Prop :=
  forall p0, A a p0 e0 -> exists p, ts = p ++ r /\ A a (p0 ++ p) e.
Definition SPEC (n : nt) (ts : list token) (x : res) (r : list token) : Prop :=
  match n with
  | NComma => exists e, x = RE e /\ leads AExpr ts e r
  | NAssign => exists e, x = RE e /\ leads AAssign ts e r
  | NCond => exists e, x = RE e /\ leads ACond ts e r
  | NBin k => (k <= 10)%nat -> exists e, x = RE e /\ leads (ABin k) ts e r
  | NLoop k e0 => (1 <= k <= 10)%nat -> exists e, x = RE e /\ after_ (ABin k) e0 ts e r
  | NCast => exists e, x = RE e /\ leads ACast ts e r
  | NUnary => exists e, x = RE e /\ leads AUnary ts e r
  | NPost e0 => exists e, x = RE e /\ after_ APost e0 ts e r
  | NPrim => exists e, x = RE e /\ leads APrim ts e r
  | NParen => exists e, x = RE e /\ forall a, leads APrim ((LPAR, a) :: ts) e r
  | NArgs => exists e, x = RE e /\ leads AArgs ts e r
  | _ => True
  end.
Lemma ebind_inv r k y : ebind r k = Some y -> exists e ts v, r = Some (RE e, (ts, v)) /\ k e ts v = Some y.
Proof. destruct r as [[[e| |] [ts v]]|]; cbn; intros H; try discriminate. eauto. Qed.
Lemma expect_inv t ts k y : expect t ts k = Some y -> exists a r, ts = (t, a) :: r /\ k r = Some y.
Proof.
  unfold expect. destruct ts as [|[u a] r]; cbn [tk tl].
  - destruct (Z.eqb_spec EOFt t); cbn [andb]; [|discriminate]. subst t. discriminate.
  - destruct (Z.eqb_spec u t); cbn [andb]; [|discriminate]. subst u. destruct (negb _); [|discriminate]. eauto.
Qed.
Lemma tk_inv t ts : t <> EOFt -> tk ts = t -> exists a r, ts = (t, a) :: r.
Proof. intros H <-. destruct ts as [|[u a] r]; [contradiction|]. exists a, r. reflexivity. Qed.
Lemma strings_inv ts : forall x s r, strings join ts x = (s, r) -> exists xs, ts = map (fun y => (STRING, y)) xs ++ r /\ s = fold_left join xs x.
Proof.
  induction ts as [|[t y] ts IH]; intros x s r H; cbn [strings] in H.
  - inversion H; subst. exists []. split; reflexivity.
  - destruct (Z.eqb_spec t STRING).
    + subst t. destruct (IH _ _ _ H) as (xs & -> & ->). exists (y :: xs). split; reflexivity.
    + inversion H; subst. exists []. split; reflexivity.
Qed.
Lemma nt_app p r : no_types (p ++ r) -> no_types r.
Proof. intros H. apply Forall_app in H. apply H. Qed.
Lemma nt_tl a r : no_types (a :: r) -> no_types r.
Proof. intros H. inversion H; assumption. Qed.
Lemma nt_hd r : no_types r -> is_type_starter (tk r) = false.
Proof. intros H. destruct r as [|[t a] r]; [reflexivity|]. inversion H; assumption. Qed.
Lemma leads_nt a ts e r : leads a ts e r -> no_types ts -> no_types r.
Proof. intros (p & -> & _) H. exact (nt_app _ _ H). Qed.
Lemma in_ops t l : existsb (Z.eqb t) l = true -> In t l.
Proof. intros H. apply existsb_exists in H as (x & I & E). apply Z.eqb_eq in E. congruence. Qed.
Lemma noeof t l : existsb (Z.eqb t) l = true -> existsb (Z.eqb EOFt) l = false -> t <> EOFt.
Proof. congruence. Qed.

Theorem accept_sound : forall f n ts v x r v', no_types ts ->
  P sh td join f n ts v = Some (x, (r, v')) -> SPEC n ts x r.
Proof.
  induction f as [|f IH]; intros n ts v x r v' NT E; [discriminate|]. cbn [P] in E.
  destruct n as [| | |k|k r0| | |r0| | | |abs outer base|void name ls pos base|acc]; cbn [PB SPEC] in *; try exact Logic.I.
  - (* comma *)
    apply ebind_inv in E as (e & ts1 & v1 & E1 & E). destruct (IH _ _ _ _ _ _ NT E1) as (e' & X & p & -> & D). inversion X; subst e'.
    destruct (Z.eqb_spec (tk ts1) COMMA) as [C|_].
    + destruct (tk_inv COMMA ts1 ltac:(discriminate) C) as (a & r1 & ->). cbn [tl] in E.
      apply ebind_inv in E as (e2 & ts2 & v2 & E2 & E). apply nt_app, nt_tl in NT.
      destruct (IH _ _ _ _ _ _ NT E2) as (e' & Y & q & -> & D2). inversion Y; subst e'. inversion E; subst.
      eexists. split; [reflexivity|]. exists (p ++ (COMMA, a) :: q). split; [rewrite <- app_assoc; reflexivity|]. constructor; assumption.
    + inversion E; subst. eexists. split; [reflexivity|]. exists p. split; [reflexivity|]. constructor; assumption.
  - (* assignment *)
    apply ebind_inv in E as (e & ts1 & v1 & E1 & E). destruct (IH _ _ _ _ _ _ NT E1) as (e' & X & p & -> & D). inversion X; subst e'.
    destruct (existsb (Z.eqb (tk ts1)) assign_ops) eqn:C.
    + destruct (tk_inv (tk ts1) ts1 (noeof _ _ C eq_refl) eq_refl) as (a & r1 & Et). rewrite Et in E, NT |- *. cbn [tl tk] in E.
      apply ebind_inv in E as (e2 & ts2 & v2 & E2 & E). apply nt_app, nt_tl in NT.
      destruct (IH _ _ _ _ _ _ NT E2) as (e' & Y & q & -> & D2). inversion Y; subst e'. inversion E; subst.
      eexists. split; [reflexivity|]. exists (p ++ (tk ts1, a) :: q). split; [rewrite <- app_assoc; reflexivity|].
      constructor; [assumption|apply in_ops; exact C|assumption].
    + inversion E; subst. eexists. split; [reflexivity|]. exists p. split; [reflexivity|]. constructor; assumption.
  - (* conditional *)
    apply ebind_inv in E as (e & ts1 & v1 & E1 & E). destruct (IH _ _ _ _ _ _ NT E1 ltac:(lia)) as (e' & X & p & -> & D). inversion X; subst e'.
    destruct (Z.eqb_spec (tk ts1) QUEST) as [C|_].
    + destruct (tk_inv QUEST ts1 ltac:(discriminate) C) as (a & r1 & ->). cbn [tl] in E.
      apply ebind_inv in E as (e2 & ts2 & v2 & E2 & E). apply nt_app, nt_tl in NT.
      destruct (IH _ _ _ _ _ _ NT E2) as (e' & Y & q & -> & D2). inversion Y; subst e'.
      apply expect_inv in E as (b & r2 & -> & E). apply nt_app, nt_tl in NT.
      apply ebind_inv in E as (e3 & ts3 & v3 & E3 & E).
      destruct (IH _ _ _ _ _ _ NT E3) as (e' & Z & q3 & -> & D3). inversion Z; subst e'. inversion E; subst.
      eexists. split; [reflexivity|]. exists (p ++ (QUEST, a) :: q ++ (COLON, b) :: q3). split.
      * rewrite <- app_assoc. cbn [app]. rewrite <- ?app_assoc. cbn [app]. rewrite <- ?app_assoc. reflexivity.
      * constructor; assumption.
    + inversion E; subst. eexists. split; [reflexivity|]. exists p. split; [reflexivity|]. constructor; assumption.
  - (* level k *)
    intros Hk. destruct k as [|k].
    + destruct (IH _ _ _ _ _ _ NT E) as (e & -> & p & -> & D). eexists. split; [reflexivity|]. exists p. split; [reflexivity|constructor; assumption].
    + apply ebind_inv in E as (e & ts1 & v1 & E1 & E). destruct (IH _ _ _ _ _ _ NT E1 ltac:(lia)) as (e' & X & p & -> & D). inversion X; subst e'.
      apply nt_app in NT. destruct (IH _ _ _ _ _ _ NT E ltac:(lia)) as (e' & -> & K). destruct (K p (a_binS k p e D)) as (q & -> & D2).
      eexists. split; [reflexivity|]. exists (p ++ q). split; [apply app_assoc|exact D2].
  - (* loop *)
    intros Hk. destruct (existsb (Z.eqb (tk ts)) (binops k)) eqn:C.
    + assert (Q : existsb (Z.eqb EOFt) (binops k) = false).
      { clear. do 11 (destruct k as [|k]; [reflexivity|]). reflexivity. }
      destruct (tk_inv (tk ts) ts (noeof _ _ C Q) eq_refl) as (a & r1 & Et). rewrite Et in E, NT |- *. cbn [tl tk] in E.
      apply ebind_inv in E as (e2 & ts2 & v2 & E2 & E). apply nt_tl in NT. destruct k as [|k]; [lia|]. cbn [Nat.pred] in E2.
      destruct (IH _ _ _ _ _ _ NT E2 ltac:(lia)) as (e' & Y & q & -> & D2). inversion Y; subst e'. apply nt_app in NT.
      destruct (IH _ _ _ _ _ _ NT E ltac:(lia)) as (e' & -> & K). eexists. split; [reflexivity|]. intros p0 D0.
      destruct (K (p0 ++ (tk ts, a) :: q)) as (q3 & -> & D3).
      * constructor; [lia|assumption|apply in_ops; exact C|assumption].
      * exists (((tk ts, a) :: q) ++ q3). split; [cbn [app]; rewrite <- ?app_assoc; cbn [app]; rewrite <- ?app_assoc; reflexivity|]. rewrite <- app_assoc in D3. exact D3.
    + inversion E; subst. eexists. split; [reflexivity|]. intros p0 D0. exists []. split; [reflexivity|]. rewrite app_nil_r. exact D0.
  - (* cast *)
    destruct (Z.eqb_spec (tk ts) LPAR) as [C|_].
    + destruct (tk_inv LPAR ts ltac:(discriminate) C) as (a & r1 & ->). cbn [tl] in E. apply nt_tl in NT. rewrite (nt_hd _ NT) in E.
      apply ebind_inv in E as (e & ts1 & v1 & E1 & E). destruct (IH _ _ _ _ _ _ NT E1) as (e' & X & K). inversion X; subst e'.
      destruct (K a) as (p & Ep & D). destruct p as [|c p]; [inversion D; destruct ts; discriminate|]. injection Ep as <- ->. apply nt_app in NT.
      destruct (IH _ _ _ _ _ _ NT E) as (e' & -> & K2). destruct (K2 _ (a_post _ _ D)) as (q & -> & D2).
      eexists. split; [reflexivity|]. exists (((LPAR, a) :: p) ++ q). split; [cbn [app]; rewrite <- ?app_assoc; cbn [app]; rewrite <- ?app_assoc; reflexivity|]. apply a_cast0, a_unary. exact D2.
    + destruct (IH _ _ _ _ _ _ NT E) as (e & -> & p & -> & D). eexists. split; [reflexivity|]. exists p. split; [reflexivity|constructor; assumption].
  - (* unary *)
    destruct (Z.eqb_spec (tk ts) PLUS_PLUS) as [C|_];
      [|destruct (Z.eqb_spec (tk ts) MINUS_MINUS) as [C|_];
        [|destruct (existsb (Z.eqb (tk ts)) [AMP; STAR; PLUS; MINUS; TILDE; EXCL]) eqn:C;
          [|destruct (Z.eqb_spec (tk ts) SIZEOF_KW) as [C2|_]]]].
    + destruct (tk_inv PLUS_PLUS ts ltac:(discriminate) C) as (a & r1 & ->). cbn [tl] in E. apply nt_tl in NT.
      apply ebind_inv in E as (e & ts1 & v1 & E1 & E). destruct (IH _ _ _ _ _ _ NT E1) as (e' & X & p & -> & D). inversion X; subst e'. inversion E; subst.
      eexists. split; [reflexivity|]. exists ((PLUS_PLUS, a) :: p). split; [reflexivity|]. constructor; assumption.
    + destruct (tk_inv MINUS_MINUS ts ltac:(discriminate) C) as (a & r1 & ->). cbn [tl] in E. apply nt_tl in NT.
      apply ebind_inv in E as (e & ts1 & v1 & E1 & E). destruct (IH _ _ _ _ _ _ NT E1) as (e' & X & p & -> & D). inversion X; subst e'. inversion E; subst.
      eexists. split; [reflexivity|]. exists ((MINUS_MINUS, a) :: p). split; [reflexivity|]. constructor; assumption.
    + destruct (tk_inv (tk ts) ts (noeof _ _ C eq_refl) eq_refl) as (a & r1 & Et). rewrite Et in E, NT |- *. cbn [tl tk] in E. apply nt_tl in NT.
      apply ebind_inv in E as (e & ts1 & v1 & E1 & E). destruct (IH _ _ _ _ _ _ NT E1) as (e' & X & p & -> & D). inversion X; subst e'. inversion E; subst.
      eexists. split; [reflexivity|]. exists ((tk ts, a) :: p). split; [reflexivity|]. apply a_unop; [apply in_ops; exact C|assumption].
    + destruct (tk_inv SIZEOF_KW ts ltac:(discriminate) C2) as (a & r1 & ->). cbn [tl] in E. apply nt_tl in NT.
      destruct (Z.eqb_spec (tk r1) LPAR) as [C3|_].
      * destruct (tk_inv LPAR r1 ltac:(discriminate) C3) as (b & r2 & ->). cbn [tl] in E. apply nt_tl in NT. rewrite (nt_hd _ NT) in E.
        apply ebind_inv in E as (e & ts1 & v1 & E1 & E). destruct (IH _ _ _ _ _ _ NT E1) as (e' & X & K). inversion X; subst e'.
        destruct (K b) as (p & Ep & D). destruct p as [|c p]; [inversion D; destruct ts; discriminate|]. injection Ep as <- ->. apply nt_app in NT.
        apply ebind_inv in E as (e2 & ts2 & v2 & E2 & E). destruct (IH _ _ _ _ _ _ NT E2) as (e' & Y & K2). inversion Y; subst e'.
        destruct (K2 _ (a_post _ _ D)) as (q & -> & D2). inversion E; subst.
        eexists. split; [reflexivity|]. exists ((SIZEOF_KW, a) :: ((LPAR, b) :: p) ++ q). split; [cbn [app]; rewrite <- ?app_assoc; cbn [app]; rewrite <- ?app_assoc; reflexivity|].
        apply a_sizeof, a_unary. exact D2.
      * apply ebind_inv in E as (e & ts1 & v1 & E1 & E). destruct (IH _ _ _ _ _ _ NT E1) as (e' & X & p & -> & D). inversion X; subst e'. inversion E; subst.
        eexists. split; [reflexivity|]. exists ((SIZEOF_KW, a) :: p). split; [reflexivity|]. constructor; assumption.
    + apply ebind_inv in E as (e & ts1 & v1 & E1 & E). destruct (IH _ _ _ _ _ _ NT E1) as (e' & X & p & -> & D). inversion X; subst e'. apply nt_app in NT.
      destruct (IH _ _ _ _ _ _ NT E) as (e' & -> & K). destruct (K _ (a_post _ _ D)) as (q & -> & D2).
      eexists. split; [reflexivity|]. exists (p ++ q). split; [apply app_assoc|]. apply a_unary. exact D2.
  - (* postfix *)
    destruct (Z.eqb_spec (tk ts) LBRACK) as [C|_].
    { destruct (tk_inv LBRACK ts ltac:(discriminate) C) as (a & r1 & ->). cbn [tl] in E. apply nt_tl in NT.
      apply ebind_inv in E as (e & ts1 & v1 & E1 & E). destruct (IH _ _ _ _ _ _ NT E1) as (e' & X & p & -> & D). inversion X; subst e'. apply nt_app in NT.
      apply expect_inv in E as (b & r2 & -> & E). apply nt_tl in NT. destruct (IH _ _ _ _ _ _ NT E) as (e' & -> & K). eexists. split; [reflexivity|].
      intros p0 D0. destruct (K _ (a_index p0 r0 a p e b D0 D)) as (q & -> & D2). exists (((LBRACK, a) :: p ++ [(RBRACK, b)]) ++ q). split.
      - cbn [app]. rewrite <- ?app_assoc. cbn [app]. rewrite <- ?app_assoc. reflexivity.
      - rewrite app_assoc. exact D2. }
    destruct (Z.eqb_spec (tk ts) LPAR) as [C|_].
    { destruct (tk_inv LPAR ts ltac:(discriminate) C) as (a & r1 & ->). cbn [tl] in E. apply nt_tl in NT.
      destruct (Z.eqb_spec (tk r1) RPAR) as [C2|_].
      - destruct (tk_inv RPAR r1 ltac:(discriminate) C2) as (b & r2 & ->). cbn [tl] in E. apply nt_tl in NT.
        destruct (IH _ _ _ _ _ _ NT E) as (e' & -> & K). eexists. split; [reflexivity|].
        intros p0 D0. destruct (K _ (a_call0 p0 r0 a b D0)) as (q & -> & D2). exists ([(LPAR, a); (RPAR, b)] ++ q). split; [reflexivity|]. rewrite app_assoc. exact D2.
      - apply ebind_inv in E as (e & ts1 & v1 & E1 & E). destruct (IH _ _ _ _ _ _ NT E1) as (e' & X & p & -> & D). inversion X; subst e'. apply nt_app in NT.
        apply expect_inv in E as (b & r2 & -> & E). apply nt_tl in NT. destruct (IH _ _ _ _ _ _ NT E) as (e' & -> & K). eexists. split; [reflexivity|].
        intros p0 D0. destruct (K _ (a_call p0 r0 a p e b D0 D)) as (q & -> & D2). exists (((LPAR, a) :: p ++ [(RPAR, b)]) ++ q). split.
        + cbn [app]. rewrite <- ?app_assoc. cbn [app]. rewrite <- ?app_assoc. reflexivity.
        + rewrite app_assoc. exact D2. }
    destruct (Z.eqb_spec (tk ts) DOT) as [C|_].
    { destruct (tk_inv DOT ts ltac:(discriminate) C) as (a & r1 & ->). cbn [tl] in E. apply nt_tl in NT.
      destruct r1 as [|[t y] r1]; [discriminate|]. destruct (Z.eqb_spec t IDENTIFIER) as [->|]; [|discriminate]. apply nt_tl in NT.
      destruct (IH _ _ _ _ _ _ NT E) as (e' & -> & K). eexists. split; [reflexivity|].
      intros p0 D0. destruct (K _ (a_dot p0 r0 a y D0)) as (q & -> & D2). exists ([(DOT, a); (IDENTIFIER, y)] ++ q). split; [reflexivity|]. rewrite app_assoc. exact D2. }
    destruct (Z.eqb_spec (tk ts) ARROW) as [C|_].
    { destruct (tk_inv ARROW ts ltac:(discriminate) C) as (a & r1 & ->). cbn [tl] in E. apply nt_tl in NT.
      destruct r1 as [|[t y] r1]; [discriminate|]. destruct (Z.eqb_spec t IDENTIFIER) as [->|]; [|discriminate]. apply nt_tl in NT.
      destruct (IH _ _ _ _ _ _ NT E) as (e' & -> & K). eexists. split; [reflexivity|].
      intros p0 D0. destruct (K _ (a_arrow p0 r0 a y D0)) as (q & -> & D2). exists ([(ARROW, a); (IDENTIFIER, y)] ++ q). split; [reflexivity|]. rewrite app_assoc. exact D2. }
    destruct (Z.eqb_spec (tk ts) PLUS_PLUS) as [C|_].
    { destruct (tk_inv PLUS_PLUS ts ltac:(discriminate) C) as (a & r1 & ->). cbn [tl] in E. apply nt_tl in NT.
      destruct (IH _ _ _ _ _ _ NT E) as (e' & -> & K). eexists. split; [reflexivity|].
      intros p0 D0. destruct (K _ (a_inc p0 r0 a D0)) as (q & -> & D2). exists ([(PLUS_PLUS, a)] ++ q). split; [reflexivity|]. rewrite app_assoc. exact D2. }
    destruct (Z.eqb_spec (tk ts) MINUS_MINUS) as [C|_].
    { destruct (tk_inv MINUS_MINUS ts ltac:(discriminate) C) as (a & r1 & ->). cbn [tl] in E. apply nt_tl in NT.
      destruct (IH _ _ _ _ _ _ NT E) as (e' & -> & K). eexists. split; [reflexivity|].
      intros p0 D0. destruct (K _ (a_dec p0 r0 a D0)) as (q & -> & D2). exists ([(MINUS_MINUS, a)] ++ q). split; [reflexivity|]. rewrite app_assoc. exact D2. }
    inversion E; subst. eexists. split; [reflexivity|]. intros p0 D0. exists []. split; [reflexivity|]. rewrite app_nil_r. exact D0.
  - (* primary *)
    destruct ts as [|[t y] r1]; [discriminate|]. destruct (is_leaf t) eqn:L.
    { inversion E; subst. eexists. split; [reflexivity|]. exists [(t, y)]. split; [reflexivity|]. constructor. exact L. }
    destruct (Z.eqb_spec t STRING) as [->|_].
    { destruct (strings join r1 y) as [s r2] eqn:ES. inversion E; subst. destruct (strings_inv _ _ _ _ ES) as (xs & -> & ->).
      eexists. split; [reflexivity|]. exists ((STRING, y) :: map (fun y => (STRING, y)) xs). split; [reflexivity|]. constructor. }
    destruct (Z.eqb_spec t LPAR) as [->|_]; [|discriminate]. apply nt_tl in NT.
    destruct (IH _ _ _ _ _ _ NT E) as (e & -> & K). eexists. split; [reflexivity|]. apply K.
  - (* parentheses *)
    apply ebind_inv in E as (e & ts1 & v1 & E1 & E). destruct (IH _ _ _ _ _ _ NT E1) as (e' & X & p & -> & D). inversion X; subst e'.
    apply expect_inv in E as (b & r2 & -> & E). inversion E; subst. eexists. split; [reflexivity|]. intros a.
    exists ((LPAR, a) :: p ++ [(RPAR, b)]). split; [cbn [app]; rewrite <- ?app_assoc; cbn [app]; rewrite <- ?app_assoc; reflexivity|]. constructor. exact D.
  - (* arguments *)
    apply ebind_inv in E as (e & ts1 & v1 & E1 & E). destruct (IH _ _ _ _ _ _ NT E1) as (e' & X & p & -> & D). inversion X; subst e'.
    destruct (Z.eqb_spec (tk ts1) COMMA) as [C|_].
    + destruct (tk_inv COMMA ts1 ltac:(discriminate) C) as (a & r1 & ->). cbn [tl] in E.
      apply ebind_inv in E as (e2 & ts2 & v2 & E2 & E). apply nt_app, nt_tl in NT.
      destruct (IH _ _ _ _ _ _ NT E2) as (e' & Y & q & -> & D2). inversion Y; subst e'. inversion E; subst.
      eexists. split; [reflexivity|]. exists (p ++ (COMMA, a) :: q). split; [rewrite <- app_assoc; reflexivity|]. constructor; assumption.
    + inversion E; subst. eexists. split; [reflexivity|]. exists p. split; [reflexivity|]. constructor; assumption.
Qed.

(** ** From that language to C's *)
Definition gn (n : ant) : gnt :=
  match n with
  | APrim => GPrim | APost => GPost | AUnary => GUnary | ACast => GCast | ABin k => GBin k
  | ACond => GCond | AAssign => GAssign | AExpr => GExpr | AArgs => GArgs
  end.
Lemma ops_in (t : Z) l : In t l -> existsb (Z.eqb t) l = true.
Proof. intros I. apply existsb_exists. exists t. split; [exact I|apply Z.eqb_refl]. Qed.
Lemma binops_flat k t : (k < 10)%nat -> In t (binops (S k)) -> In t (flat_map binops (seq 1 10)).
Proof. intros H I. apply in_flat_map. exists (S k). split; [apply in_seq; lia|exact I]. Qed.
Lemma not_unary t a b : In t (CAST :: COMMA :: assign_ops ++ flat_map binops (seq 1 10)) -> unary_shaped (new_ast2 t a b) = false.
Proof. intros I. cbn [unary_shaped new_ast2]. rewrite (ops_in _ _ I). reflexivity. Qed.
Lemma to_cond ts e : A AExpr ts e -> cond_shaped e = true -> A ACond ts e.
Proof.
  intros D U. inversion D; subst; [|discriminate].
  match goal with H : A AAssign _ _ |- _ => inversion H; subst; [assumption|] end.
  match goal with H : In _ assign_ops |- _ => cbn [cond_shaped new_ast2] in U; rewrite (ops_in _ (COMMA :: assign_ops)) in U by (right; exact H) end.
  discriminate.
Qed.
Lemma shaped_kids op v l : c_shaped (Node op v l) = true -> Forall (fun e => c_shaped e = true) l.
Proof. cbn [c_shaped]. intros H. apply andb_prop in H as [H _]. apply Forall_forall. apply forallb_forall. exact H. Qed.
Lemma shaped1 op a : c_shaped (new_ast1 op a) = true -> c_shaped a = true.
Proof. intros H. apply shaped_kids in H. inversion H; assumption. Qed.
Lemma shaped2 op a b : c_shaped (new_ast2 op a b) = true -> c_shaped a = true /\ c_shaped b = true.
Proof. intros H. apply shaped_kids in H. inversion H as [|? ? X Y]; subst. inversion Y; subst. auto. Qed.
Lemma shaped3 op a b c : c_shaped (new_ast3 op a b c) = true -> c_shaped a = true /\ c_shaped b = true /\ c_shaped c = true.
Proof. intros H. apply shaped_kids in H. inversion H as [|? ? X Y]; subst. inversion Y as [|? ? X2 Y2]; subst. inversion Y2; subst. auto. Qed.
Lemma shaped4 op a b c d : c_shaped (new_ast4 op a b c d) = true -> c_shaped a = true /\ c_shaped b = true /\ c_shaped c = true /\ c_shaped d = true.
Proof. intros H. apply shaped_kids in H. inversion H as [|? ? X Y]; subst. inversion Y as [|? ? X2 Y2]; subst. inversion Y2 as [|? ? X3 Y3]; subst. inversion Y3; subst. auto. Qed.
Lemma shaped_assign t a b : In t assign_ops -> c_shaped (new_ast2 t a b) = true -> unary_shaped a = true.
Proof. intros I H. cbn [c_shaped new_ast2] in H. rewrite (ops_in _ _ I) in H. apply andb_prop in H as [_ H]. apply andb_prop in H as [H _]. exact H. Qed.
Lemma shaped_case a b : c_shaped (new_ast2 CASE_KW a b) = true -> cond_shaped a = true.
Proof. intros H. cbn [c_shaped new_ast2] in H. apply andb_prop in H as [_ H]. apply andb_prop in H as [_ H]. exact H. Qed.
Notation G := (G sh td join).
Lemma to_G2 n ts e : A n ts e -> c_shaped e = true -> G (gn n) ts (OE e) /\
  (unary_shaped e = true -> match n with AUnary | ACast | ABin _ | ACond => G GUnary ts (OE e) | _ => True end).
Proof.
  induction 1; intros S; cbn [gn] in *;
    try (apply shaped1 in S); try (pose proof (shaped2 _ _ _ S) as [S1 S2]); try (pose proof (shaped3 _ _ _ _ S) as (S1 & S2 & S3));
    repeat match goal with IH : ?a -> _ /\ _, H : ?a |- _ => specialize (IH H); destruct IH as [? ?] end.
  all: try (split; [solve [constructor; assumption|apply g_call0; assumption|apply g_inc; assumption|apply g_dec; assumption|apply g_dot; assumption|apply g_arrow; assumption|apply g_bin; assumption|apply g_cond; assumption|apply g_call; assumption|apply g_index; assumption|apply g_args; assumption|apply g_comma; assumption]|]; intros U; solve [exact Logic.I|discriminate U|assumption|constructor; assumption|auto]).
  1-4: exact 0.
  - (* binary *) split; [apply g_bin; assumption|]. intros U. rewrite not_unary in U; [discriminate|]. right. right. apply in_or_app. right. eapply binops_flat; eassumption.
  - (* assignment *) split; [|intros _; exact Logic.I]. apply g_assign; [|assumption|assumption].
    match goal with H : unary_shaped e = true -> _ |- _ => apply H end. eapply shaped_assign; eassumption.
Qed.
Lemma to_G n ts e : A n ts e -> c_shaped e = true -> G (gn n) ts (OE e).
Proof. intros D S. apply (to_G2 n ts e D S). Qed.

(** ** Statements *)
(* as in GrammarStmt (R4): the token after the label of a goto carries the label's value, as it does when read from a file *)
Fixpoint carried (ts : list token) : Prop :=
  match ts with
  | (t, x) :: r => match r with (u, y) :: _ => t = IDENTIFIER -> u = SEMI -> y = x | [] => True end /\ carried r
  | [] => True
  end.
Definition plain (ts : list token) : Prop := no_types ts /\ carried ts.
Lemma pl_tl a r : plain (a :: r) -> plain r.
Proof. intros [N C]. split; [exact (nt_tl _ _ N)|]. destruct a as [t x]. cbn [carried] in C. apply C. Qed.
Lemma pl_app p r : plain (p ++ r) -> plain r.
Proof. induction p as [|a p IH]; intros H; [exact H|]. apply IH. exact (pl_tl _ _ H). Qed.
Lemma pl_hd r : plain r -> is_type_starter (tk r) = false.
Proof. intros [N _]. apply nt_hd. exact N. Qed.

Notation H := (GrammarStmt.H sh td join).
Lemma abind_inv r k y : abind r k = Some y -> exists a s, r = Some (XA a, s) /\ k a s = Some y.
Proof. destruct r as [[[a|a sc|l|l] s]|]; cbn; intros E; try discriminate. eauto. Qed.
Lemma libind_inv r k y : libind r k = Some y -> exists l s, r = Some (XL l, s) /\ k l s = Some y.
Proof. destruct r as [[[a|a sc|l|l] s]|]; cbn; intros E; try discriminate. eauto. Qed.
Lemma exbind_inv t r k y : exbind t r k = Some y -> exists e ts v, r = Some (RE e, (ts, v)) /\ k e (t, ts, v) = Some y.
Proof. destruct r as [[[e| |] [ts v]]|]; cbn; intros E; try discriminate. eauto. Qed.
Lemma sexpect_inv t d ts v k y : t <> EOFt -> sexpect t (d, ts, v) k = Some y -> exists a r, ts = (t, a) :: r /\ k (d, r, v) = Some y.
Proof.
  intros N E. unfold sexpect in E. destruct (Z.eqb_spec (tk ts) t) as [C|]; [|discriminate]. destruct (tk_inv t ts N C) as (a & r & ->). eauto.
Qed.
Lemma paren_inv a p e : A APrim ((LPAR, a) :: p) e -> exists q b e0, p = q ++ [(RPAR, b)] /\ e = new_ast1 PARENS e0 /\ A AExpr q e0.
Proof. intros D. inversion D; subst; [discriminate|]. do 3 eexists. split; [reflexivity|]. split; [reflexivity|assumption]. Qed.
Lemma ident_inv n ts e : A n ts e -> get_op e = IDENTIFIER -> exists x, ts = [(IDENTIFIER, x)] /\ e = new_ast0 IDENTIFIER x.
Proof.
  induction 1; intros E; cbn [get_op new_ast0 new_ast1 new_ast2 new_ast3] in E; try discriminate; auto.
  - subst t. eexists. split; reflexivity.
  - subst t. match goal with I : In _ _ |- _ => cbn in I; repeat (destruct I as [I|I]; [discriminate|]); destruct I end.
  - subst t. exfalso. assert (K : In IDENTIFIER (flat_map binops (seq 1 10))) by (eapply binops_flat; eassumption).
    cbn in K. repeat (destruct K as [K|K]; [discriminate|]). destruct K.
  - subst t. match goal with I : In _ _ |- _ => cbn in I; repeat (destruct I as [I|I]; [discriminate|]); destruct I end.
Qed.
Definition SSPEC (n : snt) (s : sst) (x : sres) (s' : sst) : Prop :=
  match n with
  | SStmt => exists a r v', x = XA a /\ s' = (td, r, v') /\ plain r /\
      (c_shaped a = true -> exists p o, snd (fst s) = p ++ r /\ H (HStmt o) p (QE a) /\ (o = true -> tk r <> ELSE_KW))
  | SItems acc => exists l r v', x = XL (acc ++ l) /\ s' = (td, r, v') /\ plain r /\
      (Forall (fun a => c_shaped a = true) l -> exists p b, snd (fst s) = p ++ (RBRACE, b) :: r /\ H HItems p (QL l))
  | _ => True
  end.
Lemma block_shaped l : c_shaped (block l) = true -> Forall (fun a => c_shaped a = true) l.
Proof. induction l as [|a l IH]; intros E; [constructor|]. cbn [block] in E. apply shaped2 in E as [E1 E2]. constructor; auto. Qed.

(* an expression in parentheses *)
Lemma got_paren f ts v e r v' a : plain ts -> P sh td join f NParen ts v = Some (RE e, (r, v')) ->
  plain r /\ exists q b e0, (LPAR, a) :: ts = (LPAR, a) :: q ++ (RPAR, b) :: r /\ e = new_ast1 PARENS e0 /\ A AExpr q e0.
Proof.
  intros NT E. destruct (accept_sound _ _ _ _ _ _ _ (proj1 NT) E) as (e' & X & K). inversion X; subst e'. destruct (K a) as (p & Ep & D).
  destruct p as [|c p]; [inversion D; destruct ts; discriminate|]. injection Ep as <- ->. split; [exact (pl_app _ _ NT)|].
  destruct (paren_inv _ _ _ D) as (q & b & e0 & -> & -> & D0). exists q, b, e0. split; [rewrite <- app_assoc; reflexivity|]. split; [reflexivity|exact D0].
Qed.
Lemma got_expr f ts v e r v' : plain ts -> P sh td join f NComma ts v = Some (RE e, (r, v')) ->
  plain r /\ exists q, ts = q ++ r /\ A AExpr q e.
Proof.
  intros NT E. destruct (accept_sound _ _ _ _ _ _ _ (proj1 NT) E) as (e' & X & p & -> & D). inversion X; subst e'. split; [exact (pl_app _ _ NT)|]. exists p. auto.
Qed.
Lemma got_opt f ts v k y : plain ts ->
  (if existsb (Z.eqb (tk ts)) [COLON; SEMI; RPAR] then k (Raw 0) (td, ts, v) else exbind td (P sh td join f NComma ts v) k) = Some y ->
  exists e r v', plain r /\ k e (td, r, v') = Some y /\ exists q, ts = q ++ r /\ (e = Raw 0 /\ q = [] \/ A AExpr q e).
Proof.
  intros NT E. destruct (existsb _ _).
  - exists (Raw 0), ts, v. split; [exact NT|]. split; [exact E|]. exists []. auto.
  - apply exbind_inv in E as (e & r & v' & E1 & E). destruct (got_expr _ _ _ _ _ _ NT E1) as (NT2 & q & Eq & D). exists e, r, v'. eauto 6.
Qed.
Lemma opt_H q e : (e = Raw 0 /\ q = [] \/ A AExpr q e) -> c_shaped e = true -> H HOpt q (QE e).
Proof. intros [[-> ->]|D] S; [constructor|]. apply h_opt. exact (to_G _ _ _ D S). Qed.
Lemma tk_if t ts (b c : option (sres * sst)) y : t <> EOFt -> (if tk ts =? t then b else c) = Some y ->
  (exists a r, ts = (t, a) :: r /\ b = Some y) \/ (tk ts <> t /\ c = Some y).
Proof.
  intros N. destruct (Z.eqb_spec (tk ts) t) as [C|C]; intros E; [left|right; auto]. destruct (tk_inv t ts N C) as (a & r & ->). eauto.
Qed.
Ltac take_opt E NT :=
  match type of E with context [exbind td (P sh td join ?f NComma ?ts ?v) ?k] =>
    match type of E with _ = Some ?y => apply (got_opt f ts v k y NT) in E end end.
Theorem stmt_sound : forall f n ts v x s', plain ts ->
  PS sh join f n (td, ts, v) = Some (x, s') -> SSPEC n (td, ts, v) x s'.
Proof.
  induction f as [|f IH]; intros n ts v x s' NT E; [discriminate|]. cbn [PS] in E.
  destruct n as [| | | | | | | | | |acc|]; cbn [SSPEC]; try exact Logic.I; cbn [SB] in E.
  - (* statements *)
    apply tk_if in E; [|discriminate]. destruct E as [(a & r & -> & E)|[_ E]].
    { (* if *)
      cbn [tl] in E. apply sexpect_inv in E; [|discriminate]. destruct E as (b & r2 & -> & E). apply exbind_inv in E as (e & r3 & v3 & E1 & E).
      apply pl_tl, pl_tl in NT. destruct (got_paren _ _ _ _ _ _ b NT E1) as (NT2 & q & c & e0 & Eq & -> & D). injection Eq as ->.
      apply abind_inv in E as (s1 & st1 & E2 & E). destruct (IH _ _ _ _ _ NT2 E2) as (s1' & r4 & v4 & X & -> & NT3 & K1). injection X as ->.
      apply tk_if in E; [|discriminate]. destruct E as [(d & r5 & -> & E)|[NE E]].
      - cbn [tl] in E. apply abind_inv in E as (s2 & st2 & E3 & E). apply pl_tl in NT3.
        destruct (IH _ _ _ _ _ NT3 E3) as (s2' & r6 & v6 & X & -> & NT4 & K2). injection X as ->. inversion E; subst.
        exists (new_ast3 IF_KW (new_ast1 PARENS e0) s1' s2'), r6, v6. split; [reflexivity|]. split; [reflexivity|]. split; [exact NT4|].
        intros S. apply shaped3 in S as (S1 & S2 & S3). apply shaped1 in S1. destruct (K1 S2) as (p1 & o1 & Ep1 & D1 & N1). destruct (K2 S3) as (p2 & o2 & Ep2 & D2 & N2).
        cbn [fst snd] in *. subst r3 r5. destruct o1; [exfalso; apply N1; reflexivity|].
        exists ((IF_KW, a) :: (LPAR, b) :: q ++ (RPAR, c) :: p1 ++ (ELSE_KW, d) :: p2), o2. split.
        + cbn [app]. rewrite <- ?app_assoc. cbn [app]. rewrite <- ?app_assoc. reflexivity.
        + split; [|exact N2]. apply h_ifelse; [exact (to_G _ _ _ D S1)|assumption|assumption].
      - inversion E; subst. exists (new_ast3 IF_KW (new_ast1 PARENS e0) s1' (Raw 0)), r4, v4. split; [reflexivity|]. split; [reflexivity|]. split; [exact NT3|].
        intros S. apply shaped3 in S as (S1 & S2 & S3). apply shaped1 in S1. destruct (K1 S2) as (p1 & o1 & Ep1 & D1 & N1). cbn [fst snd] in *. subst r3.
        exists ((IF_KW, a) :: (LPAR, b) :: q ++ (RPAR, c) :: p1), true. split.
        + cbn [app]. rewrite <- ?app_assoc. cbn [app]. reflexivity.
        + split; [|intros _; exact NE]. eapply h_if; [exact (to_G _ _ _ D S1)|eassumption]. }
    apply tk_if in E; [|discriminate]. destruct E as [(a & r & -> & E)|[_ E]].
    { (* switch *)
      cbn [tl] in E. apply sexpect_inv in E; [|discriminate]. destruct E as (b & r2 & -> & E). apply exbind_inv in E as (e & r3 & v3 & E1 & E).
      apply pl_tl, pl_tl in NT. destruct (got_paren _ _ _ _ _ _ b NT E1) as (NT2 & q & c & e0 & Eq & -> & D). injection Eq as ->.
      apply abind_inv in E as (s1 & st1 & E2 & E). destruct (IH _ _ _ _ _ NT2 E2) as (s1' & r4 & v4 & X & -> & NT3 & K1). injection X as ->.
      inversion E; subst. exists (new_ast2 SWITCH_KW (new_ast1 PARENS e0) s1'), r4, v4. split; [reflexivity|]. split; [reflexivity|]. split; [exact NT3|].
      intros S. apply shaped2 in S as (S1 & S2). apply shaped1 in S1. destruct (K1 S2) as (p1 & o1 & Ep1 & D1 & N1). cbn [fst snd] in *. subst r3.
      exists ((SWITCH_KW, a) :: (LPAR, b) :: q ++ (RPAR, c) :: p1), o1. split.
      + cbn [app]. rewrite <- ?app_assoc. cbn [app]. reflexivity.
      + split; [|exact N1]. apply h_switch; [exact (to_G _ _ _ D S1)|assumption]. }
    apply tk_if in E; [|discriminate]. destruct E as [(a & r & -> & E)|[_ E]].
    { (* case *)
      cbn [tl] in E. apply exbind_inv in E as (e & r3 & v3 & E1 & E). apply pl_tl in NT. destruct (got_expr _ _ _ _ _ _ NT E1) as (NT2 & q & -> & D).
      apply sexpect_inv in E; [|discriminate]. destruct E as (b & r2 & -> & E). apply pl_tl in NT2.
      apply abind_inv in E as (s1 & st1 & E2 & E). destruct (IH _ _ _ _ _ NT2 E2) as (s1' & r4 & v4 & X & -> & NT3 & K1). injection X as ->.
      inversion E; subst. exists (new_ast2 CASE_KW e s1'), r4, v4. split; [reflexivity|]. split; [reflexivity|]. split; [exact NT3|].
      intros S. pose proof (shaped_case _ _ S) as SC. apply shaped2 in S as (S1 & S2). destruct (K1 S2) as (p1 & o1 & Ep1 & D1 & N1). cbn [fst snd] in *. subst r2.
      exists ((CASE_KW, a) :: q ++ (COLON, b) :: p1), o1. split.
      + cbn [app]. rewrite <- ?app_assoc. cbn [app]. reflexivity.
      + split; [|exact N1]. apply h_case; [exact (to_G _ _ _ (to_cond _ _ D SC) S1)|assumption]. }
    apply tk_if in E; [|discriminate]. destruct E as [(a & r & -> & E)|[_ E]].
    { (* default *)
      cbn [tl] in E. apply sexpect_inv in E; [|discriminate]. destruct E as (b & r2 & -> & E). apply pl_tl, pl_tl in NT.
      apply abind_inv in E as (s1 & st1 & E2 & E). destruct (IH _ _ _ _ _ NT E2) as (s1' & r4 & v4 & X & -> & NT3 & K1). injection X as ->.
      inversion E; subst. exists (new_ast1 DEFAULT_KW s1'), r4, v4. split; [reflexivity|]. split; [reflexivity|]. split; [exact NT3|].
      intros S. apply shaped1 in S. destruct (K1 S) as (p1 & o1 & Ep1 & D1 & N1). cbn [fst snd] in *. subst r2.
      exists ((DEFAULT_KW, a) :: (COLON, b) :: p1), o1. split; [reflexivity|]. split; [|exact N1]. apply h_default. assumption. }
    apply tk_if in E; [|discriminate]. destruct E as [(a & r & -> & E)|[_ E]].
    { (* while *)
      cbn [tl] in E. apply sexpect_inv in E; [|discriminate]. destruct E as (b & r2 & -> & E). apply exbind_inv in E as (e & r3 & v3 & E1 & E).
      apply pl_tl, pl_tl in NT. destruct (got_paren _ _ _ _ _ _ b NT E1) as (NT2 & q & c & e0 & Eq & -> & D). injection Eq as ->.
      apply abind_inv in E as (s1 & st1 & E2 & E). destruct (IH _ _ _ _ _ NT2 E2) as (s1' & r4 & v4 & X & -> & NT3 & K1). injection X as ->.
      inversion E; subst. exists (new_ast2 WHILE_KW (new_ast1 PARENS e0) s1'), r4, v4. split; [reflexivity|]. split; [reflexivity|]. split; [exact NT3|].
      intros S. apply shaped2 in S as (S1 & S2). apply shaped1 in S1. destruct (K1 S2) as (p1 & o1 & Ep1 & D1 & N1). cbn [fst snd] in *. subst r3.
      exists ((WHILE_KW, a) :: (LPAR, b) :: q ++ (RPAR, c) :: p1), o1. split.
      + cbn [app]. rewrite <- ?app_assoc. cbn [app]. reflexivity.
      + split; [|exact N1]. apply h_while; [exact (to_G _ _ _ D S1)|assumption]. }
    apply tk_if in E; [|discriminate]. destruct E as [(a & r & -> & E)|[_ E]].
    { (* do *)
      cbn [tl] in E. apply pl_tl in NT.
      apply abind_inv in E as (s1 & st1 & E2 & E). destruct (IH _ _ _ _ _ NT E2) as (s1' & r4 & v4 & X & -> & NT3 & K1). injection X as ->.
      apply sexpect_inv in E; [|discriminate]. destruct E as (b & r2 & -> & E). apply sexpect_inv in E; [|discriminate]. destruct E as (c & r3 & -> & E).
      apply pl_tl, pl_tl in NT3. apply exbind_inv in E as (e & r5 & v5 & E1 & E). destruct (got_paren _ _ _ _ _ _ c NT3 E1) as (NT2 & q & d & e0 & Eq & -> & D). injection Eq as ->.
      apply sexpect_inv in E; [|discriminate]. destruct E as (g & r6 & -> & E). inversion E; subst. apply pl_tl in NT2.
      exists (new_ast2 DO_KW s1' (new_ast1 PARENS e0)), r6, v5. split; [reflexivity|]. split; [reflexivity|]. split; [exact NT2|].
      intros S. apply shaped2 in S as (S1 & S2). apply shaped1 in S2. destruct (K1 S1) as (p1 & o1 & Ep1 & D1 & N1). cbn [fst snd] in *. subst r.
      exists ((DO_KW, a) :: p1 ++ (WHILE_KW, b) :: (LPAR, c) :: q ++ [(RPAR, d); (SEMI, g)]), false. split.
      + cbn [app]. rewrite <- ?app_assoc. cbn [app]. rewrite <- ?app_assoc. reflexivity.
      + split; [|discriminate]. eapply h_do; [eassumption|exact (to_G _ _ _ D S2)]. }
    apply tk_if in E; [|discriminate]. destruct E as [(a & r & -> & E)|[_ E]].
    { (* for *)
      cbn [tl] in E. apply sexpect_inv in E; [|discriminate]. destruct E as (b & r2 & -> & E). apply pl_tl, pl_tl in NT.
      take_opt E NT. destruct E as (e1 & r3 & v3 & NT3 & E & q1 & -> & O1).
      apply sexpect_inv in E; [|discriminate]. destruct E as (c & r4 & -> & E). apply pl_tl in NT3.
      take_opt E NT3. destruct E as (e2 & r5 & v5 & NT5 & E & q2 & -> & O2).
      apply sexpect_inv in E; [|discriminate]. destruct E as (d & r6 & -> & E). apply pl_tl in NT5.
      take_opt E NT5. destruct E as (e3 & r7 & v7 & NT7 & E & q3 & -> & O3).
      apply sexpect_inv in E; [|discriminate]. destruct E as (g & r8 & -> & E). apply pl_tl in NT7.
      apply abind_inv in E as (s1 & st1 & E2 & E). destruct (IH _ _ _ _ _ NT7 E2) as (s1' & r9 & v9 & X & -> & NT9 & K1). injection X as ->.
      inversion E; subst. exists (new_ast4 FOR_KW e1 e2 e3 s1'), r9, v9. split; [reflexivity|]. split; [reflexivity|]. split; [exact NT9|].
      intros S. apply shaped4 in S as (S1 & S2 & S3 & S4). destruct (K1 S4) as (p1 & o1 & Ep1 & D1 & N1). cbn [fst snd] in *. subst r8.
      exists ((FOR_KW, a) :: (LPAR, b) :: q1 ++ (SEMI, c) :: q2 ++ (SEMI, d) :: q3 ++ (RPAR, g) :: p1), o1. split.
      + cbn [app]. repeat (rewrite <- ?app_assoc; cbn [app]). reflexivity.
      + split; [|exact N1]. apply h_for; first [apply opt_H; assumption|assumption]. }
    apply tk_if in E; [|discriminate]. destruct E as [(a & r & -> & E)|[_ E]].
    { (* goto *)
      cbn [tl] in E. apply sexpect_inv in E; [|discriminate]. destruct E as (y & r2 & -> & E). cbv beta in E. apply sexpect_inv in E; [|discriminate].
      destruct E as (z & r3 & -> & E). apply pl_tl in NT. pose proof (proj1 (proj2 NT) eq_refl eq_refl) as Y. cbv beta iota in Y. subst z. apply pl_tl, pl_tl in NT. inversion E; subst.
      do 3 eexists. split; [reflexivity|]. split; [reflexivity|]. split; [exact NT|]. intros _. exists [(GOTO_KW, a); (IDENTIFIER, y); (SEMI, y)], false. split; [reflexivity|].
      split; [constructor|discriminate]. }
    apply tk_if in E; [|discriminate]. destruct E as [(a & r & -> & E)|[_ E]].
    { cbn [tl] in E. apply sexpect_inv in E; [|discriminate]. destruct E as (b & r2 & -> & E). apply pl_tl, pl_tl in NT. inversion E; subst.
      do 3 eexists. split; [reflexivity|]. split; [reflexivity|]. split; [exact NT|]. intros _. exists [(CONTINUE_KW, a); (SEMI, b)], false. split; [reflexivity|].
      split; [constructor|discriminate]. }
    apply tk_if in E; [|discriminate]. destruct E as [(a & r & -> & E)|[_ E]].
    { cbn [tl] in E. apply sexpect_inv in E; [|discriminate]. destruct E as (b & r2 & -> & E). apply pl_tl, pl_tl in NT. inversion E; subst.
      do 3 eexists. split; [reflexivity|]. split; [reflexivity|]. split; [exact NT|]. intros _. exists [(BREAK_KW, a); (SEMI, b)], false. split; [reflexivity|].
      split; [constructor|discriminate]. }
    apply tk_if in E; [|discriminate]. destruct E as [(a & r & -> & E)|[_ E]].
    { (* return *) cbn [tl] in E. apply pl_tl in NT.
      take_opt E NT. destruct E as (e1 & r3 & v3 & NT3 & E & q1 & -> & O1).
      apply sexpect_inv in E; [|discriminate]. destruct E as (c & r4 & -> & E). apply pl_tl in NT3. inversion E; subst.
      do 3 eexists. split; [reflexivity|]. split; [reflexivity|]. split; [exact NT3|]. intros S. apply shaped1 in S.
      exists ((RETURN_KW, a) :: q1 ++ [(SEMI, c)]), false. split; [cbn [app]; rewrite <- app_assoc; reflexivity|]. split; [|discriminate]. apply h_return. apply opt_H; assumption. }
    apply tk_if in E; [|discriminate]. destruct E as [(a & r & -> & E)|[_ E]].
    { (* block *) cbn [tl] in E. apply pl_tl in NT. apply libind_inv in E as (l & st1 & E1 & E). destruct (IH _ _ _ _ _ NT E1) as (l' & r2 & v2 & X & -> & NT2 & K).
      cbn [app] in X. injection X as ->. inversion E; subst. do 3 eexists. split; [reflexivity|]. split; [reflexivity|]. split; [exact NT2|]. intros S.
      destruct (K (block_shaped _ S)) as (p & b & Ep & D). cbn [fst snd] in *. subst r. exists ((LBRACE, a) :: p ++ [(RBRACE, b)]), false.
      split; [cbn [app]; rewrite <- app_assoc; reflexivity|]. split; [|discriminate]. apply h_block. exact D. }
    (* an expression, or a label *)
    take_opt E NT. destruct E as (e1 & r3 & v3 & NT3 & E & q1 & -> & O1).
    destruct ((tk r3 =? COLON) && negb (tk (q1 ++ r3) =? LPAR) && (get_op e1 =? IDENTIFIER)) eqn:C.
    + apply andb_prop in C as [C C3]. apply andb_prop in C as [C1 C2]. apply Z.eqb_eq in C1. apply Z.eqb_eq in C3.
      destruct (tk_inv COLON r3 ltac:(discriminate) C1) as (b & r4 & ->). cbn [tl] in E. destruct O1 as [[-> _]|D]; [discriminate|].
      destruct (ident_inv _ _ _ D C3) as (x0 & -> & ->). apply pl_tl in NT3.
      apply abind_inv in E as (s1 & st1 & E2 & E). destruct (IH _ _ _ _ _ NT3 E2) as (s1' & r9 & v9 & X & -> & NT9 & K1). injection X as ->.
      inversion E; subst. do 3 eexists. split; [reflexivity|]. split; [reflexivity|]. split; [exact NT9|].
      intros S. apply shaped2 in S as (S1 & S2). destruct (K1 S2) as (p1 & o1 & Ep1 & D1 & N1). cbn [fst snd] in *. subst r4.
      exists ((IDENTIFIER, x0) :: (COLON, b) :: p1), o1. split; [reflexivity|]. split; [|exact N1]. apply h_label. exact D1.
    + apply sexpect_inv in E; [|discriminate]. destruct E as (c & r4 & -> & E). apply pl_tl in NT3. inversion E; subst.
      do 3 eexists. split; [reflexivity|]. split; [reflexivity|]. split; [exact NT3|]. intros S.
      exists (q1 ++ [(SEMI, c)]), false. split; [cbn [fst snd]; rewrite <- app_assoc; reflexivity|]. split; [|discriminate]. apply h_expr. apply opt_H; assumption.
  - (* the items of a block *)
    destruct ((tk ts =? RBRACE) || (tk ts =? EOFt)) eqn:C.
    + apply sexpect_inv in E; [|discriminate]. destruct E as (b & r & -> & E). inversion E; subst. exists [], r, v. rewrite app_nil_r.
      split; [reflexivity|]. split; [reflexivity|]. split; [exact (pl_tl _ _ NT)|]. intros _. exists [], b. split; [reflexivity|constructor].
    + rewrite (pl_hd _ NT) in E. apply abind_inv in E as (a & st1 & E1 & E). destruct (IH _ _ _ _ _ NT E1) as (a' & r2 & v2 & X & -> & NT2 & K). injection X as ->.
      destruct (IH _ _ _ _ _ NT2 E) as (l & r3 & v3 & -> & -> & NT3 & K2). exists (a' :: l), r3, v3. rewrite <- app_assoc.
      split; [reflexivity|]. split; [reflexivity|]. split; [exact NT3|]. intros S. inversion S as [|? ? S1 S2]; subst.
      destruct (K S1) as (p & o & Ep & D & _). destruct (K2 S2) as (p2 & b & Ep2 & D2). cbn [fst snd] in *. subst ts r2. exists (p ++ p2), b.
      split; [rewrite <- app_assoc; reflexivity|]. eapply h_items_s; eassumption.
Qed.

(** ** [c_shaped] asks no more than C does *)
Definition gspec (n : gnt) (o : obj) : Prop :=
  match o with
  | OE e => expr_nt n -> c_shaped e = true /\
      match n with GPrim | GPost | GUnary => unary_shaped e = true | _ => True end /\
      match n with GPrim | GPost | GUnary | GCast | GBin _ | GCond => cond_shaped e = true | _ => True end
  | _ => True
  end.
Lemma mk1 op a : c_shaped a = true -> c_shaped (new_ast1 op a) = true.
Proof. intros E. cbn [c_shaped new_ast1 forallb]. rewrite E. reflexivity. Qed.
Lemma mk2 op a b : ~ In op assign_ops -> op <> CASE_KW -> c_shaped a = true -> c_shaped b = true -> c_shaped (new_ast2 op a b) = true.
Proof.
  intros N1 N2 E1 E2. cbn [c_shaped new_ast2 forallb]. rewrite E1, E2. destruct (existsb _ assign_ops) eqn:X; [exfalso; apply N1, in_ops, X|].
  destruct (Z.eqb_spec op CASE_KW); [contradiction|reflexivity].
Qed.
Lemma mk3 op a b c : c_shaped a = true -> c_shaped b = true -> c_shaped c = true -> c_shaped (new_ast3 op a b c) = true.
Proof. intros E1 E2 E3. cbn [c_shaped new_ast3 forallb]. rewrite E1, E2, E3. reflexivity. Qed.
Lemma mk4 op a b c d : c_shaped a = true -> c_shaped b = true -> c_shaped c = true -> c_shaped d = true -> c_shaped (new_ast4 op a b c d) = true.
Proof. intros E1 E2 E3 E4. cbn [c_shaped new_ast4 forallb]. rewrite E1, E2, E3, E4. reflexivity. Qed.
Lemma mka t a b : In t assign_ops -> unary_shaped a = true -> c_shaped a = true -> c_shaped b = true -> c_shaped (new_ast2 t a b) = true.
Proof.
  intros I U E1 E2. cbn [c_shaped new_ast2 forallb]. rewrite E1, E2, U. rewrite (ops_in _ _ I). destruct (Z.eqb_spec t CASE_KW) as [->|]; [|reflexivity].
  exfalso. cbn in I. repeat (destruct I as [I|I]; [discriminate|]). destruct I.
Qed.
Lemma bin_not t : In t (flat_map binops (seq 1 10)) -> ~ In t assign_ops /\ t <> CASE_KW /\ t <> COMMA.
Proof. intros I. cbn in I. repeat (destruct I as [<-|I]; [split; [cbn; intuition discriminate|split; discriminate]|]). destruct I. Qed.
Lemma bin_cond t a b : In t (flat_map binops (seq 1 10)) -> cond_shaped (new_ast2 t a b) = true.
Proof.
  intros I. apply bin_not in I as (N1 & _ & N2). cbn [cond_shaped new_ast2]. destruct (existsb _ _) eqn:X; [|reflexivity]. apply in_ops in X.
  destruct X as [X|X]; [congruence|contradiction].
Qed.
Lemma type_no_G ts o : no_types ts -> ~ G GType ts o.
Proof.
  intros N D. inversion D; subst. match goal with Sp : specs _ _ ?t _ |- _ => destruct (specs_starter sh td t _ [] Sp) as [X Y]; rewrite app_nil_r in X; apply Forall_app in N as [N _]; rewrite (nt_hd _ N) in X end.
  discriminate.
Qed.
Theorem grammar_shaped n ts o : G n ts o -> no_types ts -> gspec n o.
Proof.
  induction 1; intros NT; cbn [gspec expr_nt] in *;
    try exact Logic.I; try (intros HX; destruct HX; fail);
    repeat match goal with X : no_types (_ ++ _) |- _ => apply Forall_app in X as [? ?] | X : no_types (_ :: _) |- _ => apply nt_tl in X | X : Forall _ (_ ++ _) |- _ => apply Forall_app in X as [? ?] | X : Forall _ (_ :: _) |- _ => apply nt_tl in X end;
    try (exfalso; eapply type_no_G; [|eassumption]; assumption).
  all: try (destruct o as [e| |]; [|exact Logic.I|exact Logic.I]; cbn [gspec expr_nt] in *; intros _; match goal with X : _ -> _ -> _ |- _ => specialize (X NT Logic.I) end; tauto).
  all: intros _; repeat match goal with X : no_types ?t -> _, Y : no_types ?t |- _ => specialize (X Y) | X : no_types ?t -> _, Y : Forall _ ?t |- _ => specialize (X Y) | X : True -> _ |- _ => specialize (X Logic.I) | X : _ /\ _ |- _ => destruct X end.
  all: try (split; [solve [reflexivity|apply mk1; assumption|apply mk2; [cbn; intuition discriminate|discriminate|assumption|assumption || reflexivity]|apply mk3; assumption]|split; first [exact Logic.I|reflexivity]]).
  - (* binary *) pose proof (binops_flat _ _ H H1) as B. destruct (bin_not _ B) as (N1 & N2 & _). split; [apply mk2; assumption|]. split; [exact Logic.I|apply bin_cond, B].
  - (* assignment *) split; [apply mka; assumption|]. split; exact Logic.I.
Qed.
Definition hspec (n : hnt) (o : hobj) : Prop :=
  match n, o with
  | HStmt _, QE a | HOpt, QE a => c_shaped a = true
  | HItems, QL l => Forall (fun a => c_shaped a = true) l
  | _, _ => True
  end.
Lemma shaped_block l : Forall (fun a => c_shaped a = true) l -> c_shaped (block l) = true.
Proof. induction 1; [reflexivity|]. cbn [block]. apply mk2; [cbn; intuition discriminate|discriminate|assumption|assumption]. Qed.
Lemma g_sh n ts e : G n ts (OE e) -> no_types ts -> expr_nt n -> c_shaped e = true.
Proof. intros D N X. apply (grammar_shaped _ _ _ D N X). Qed.
Lemma specs_no_H n ts o : H n ts o -> no_types ts ->
  match n with HCore | HSpec | HDecl | HFun | HTypedef => False | HSpecs => match o with QI cs _ _ => cs = [] | _ => True end | _ => True end.
Proof.
  intros D N. pose proof (hfirst_ok _ _ _ _ _ _ D) as F. assert (ST : is_type_starter (tk ts) = false) by (apply nt_hd; exact N).
  destruct n; cbn [hfirst] in F; try exact Logic.I; try (destruct F; congruence).
  destruct o; try exact Logic.I. destruct cores; [reflexivity|]. destruct F; [discriminate|congruence].
Qed.
Theorem statement_shaped n ts o : H n ts o -> no_types ts -> hspec n o.
Proof.
  induction 1; intros NT; cbn [hspec] in *; try exact Logic.I;
    repeat match goal with X : no_types (_ ++ _) |- _ => apply Forall_app in X as [? ?] | X : no_types (_ :: _) |- _ => apply nt_tl in X | X : Forall _ (_ ++ _) |- _ => apply Forall_app in X as [? ?] | X : Forall _ (_ :: _) |- _ => apply nt_tl in X end;
    repeat match goal with X : no_types ?t -> _, Y : no_types ?t |- _ => specialize (X Y) | X : no_types ?t -> _, Y : Forall _ ?t |- _ => specialize (X Y)
      | D : GrammarStmt.H _ _ _ HDecl ?t _, Y : Forall _ ?t |- _ => destruct (specs_no_H _ _ _ D Y)
      | D : Grammar.G _ _ _ ?n ?t (OE ?e), Y : Forall _ ?t |- _ => assert (c_shaped e = true) by (apply (g_sh _ _ _ D Y); exact Logic.I); let K := fresh "K" in pose proof (grammar_shaped _ _ _ D Y Logic.I) as K; cbn [gspec] in K; clear D
      | D : Grammar.G _ _ _ ?n ?t (OE ?e), Y : no_types ?t |- _ => assert (c_shaped e = true) by (apply (g_sh _ _ _ D Y); exact Logic.I); clear D end.
  all: try solve [reflexivity|assumption|constructor; assumption|apply shaped_block; assumption|repeat (apply mk1 || apply mk3 || apply mk4 || (apply mk2; [cbn; intuition discriminate|discriminate| |])); assumption || reflexivity].
  (* case *)
  destruct K as (_ & _ & K). cbn [c_shaped new_ast2 forallb]. repeat match goal with X : c_shaped _ = true |- _ => rewrite X end. rewrite K. reflexivity.
Qed.

(** ** The theorems *)
Theorem c51_expression_partial : forall ts v e r v', no_types ts -> Parses sh td join NComma ts v (RE e, (r, v')) -> c_shaped e = true ->
  exists p, ts = p ++ r /\ G GExpr p (OE e).
Proof.
  intros ts v e r v' N [f E] S. destruct (accept_sound _ _ _ _ _ _ _ N E) as (e' & X & p & -> & D). injection X as <-. exists p. split; [reflexivity|]. exact (to_G _ _ _ D S).
Qed.
Theorem c51_statement_partial : forall ts v s td' r v', plain ts -> SParses sh join SStmt (td, ts, v) (XA s, (td', r, v')) -> c_shaped s = true ->
  td' = td /\ exists p o, ts = p ++ r /\ H (HStmt o) p (QE s) /\ (o = true -> tk r <> ELSE_KW).
Proof.
  intros ts v s td' r v' N [f E] S. destruct (stmt_sound _ _ _ _ _ _ N E) as (a & r' & w & X & Y & _ & K). injection X as <-. injection Y as -> -> ->. split; [reflexivity|]. exact (K S).
Qed.
(* so on these tokens the parser decides the C grammar *)
Theorem c51_decides_expression_partial : forall ts v e, no_types ts ->
  (exists v', Parses sh td join NComma ts v (RE e, ([], v'))) /\ c_shaped e = true <-> G GExpr ts (OE e).
Proof.
  intros ts v e N. split.
  - intros [[v' E] S]. destruct (c51_expression_partial _ _ _ _ _ N E S) as (p & -> & D). rewrite app_nil_r. exact D.
  - intros D. split; [|exact (g_sh _ _ _ D N Logic.I)]. destruct (c14_expression sh td join ts e [] v D) as (v' & E); [cbn; intuition discriminate|].
    rewrite app_nil_r in E. exists v'. exact E.
Qed.
Theorem c51_decides_statement_partial : forall ts v s, plain ts ->
  (exists v', SParses sh join SStmt (td, ts, v) (XA s, (td, [], v'))) /\ c_shaped s = true <-> exists o, H (HStmt o) ts (QE s).
Proof.
  intros ts v s N. split.
  - intros [[v' E] S]. destruct (c51_statement_partial _ _ _ _ _ _ N E S) as (_ & p & o & -> & D & _). rewrite app_nil_r. exists o. exact D.
  - intros [o D]. split; [|exact (statement_shaped _ _ _ D (proj1 N))]. destruct (c49_statement sh join td o ts s [] v D) as (v' & E); [discriminate|].
    rewrite app_nil_r in E. exists v'. exact E.
Qed.
End Accept.

(** ** What is accepted and is not C *)
Definition td00 : tdm := fun _ => None.
Definition j00 (a b : Z) : Z := 0.
Definition tk0 (t : Z) : token := (t, 0).
Lemma refuse ts e v v' : no_types ts -> Parses false td00 j00 NComma ts v (RE e, ([], v')) -> c_shaped e = false ->
  forall e', ~ Grammar.G false td00 j00 GExpr ts (OE e').
Proof.
  intros N E S e' D. apply (c51_decides_expression_partial _ _ _ _ v _ N) in D as [[w E'] S'].
  pose proof (c14_deterministic _ _ _ _ _ _ _ _ E E') as X. injection X as -> _. congruence.
Qed.
Ltac nt := repeat (constructor; [reflexivity|]); constructor.
(* a + b = c: the left side of an assignment is any expression *)
Theorem c51_assign_refuted :
  (exists v, Parses false td00 j00 NComma [(IDENTIFIER, 1); tk0 PLUS; (IDENTIFIER, 2); tk0 EQ; (IDENTIFIER, 3)] (false, 0)
     (RE (new_ast2 EQ (new_ast2 PLUS (new_ast0 IDENTIFIER 1) (new_ast0 IDENTIFIER 2)) (new_ast0 IDENTIFIER 3)), ([], v))) /\
  forall e, ~ Grammar.G false td00 j00 GExpr [(IDENTIFIER, 1); tk0 PLUS; (IDENTIFIER, 2); tk0 EQ; (IDENTIFIER, 3)] (OE e).
Proof.
  assert (X : Parses false td00 j00 NComma [(IDENTIFIER, 1); tk0 PLUS; (IDENTIFIER, 2); tk0 EQ; (IDENTIFIER, 3)] (false, 0)
     (RE (new_ast2 EQ (new_ast2 PLUS (new_ast0 IDENTIFIER 1) (new_ast0 IDENTIFIER 2)) (new_ast0 IDENTIFIER 3)), ([], (false, 0))))
    by (exists 40%nat; vm_compute; reflexivity).
  split; [eexists; exact X|]. eapply refuse; [nt|exact X|reflexivity].
Qed.
(* case 1, 2: ; *)
Theorem c51_case_refuted :
  (exists v, SParses false j00 SStmt (td00, [tk0 CASE_KW; (INTEGER, -1); tk0 COMMA; (INTEGER, -2); tk0 COLON; tk0 SEMI], (false, 0))
     (XA (new_ast2 CASE_KW (new_ast2 COMMA (new_ast0 INTEGER (-1)) (new_ast0 INTEGER (-2))) (Raw 0)), (td00, [], v))) /\
  forall o s, ~ GrammarStmt.H false td00 j00 (HStmt o) [tk0 CASE_KW; (INTEGER, -1); tk0 COMMA; (INTEGER, -2); tk0 COLON; tk0 SEMI] (QE s).
Proof.
  set (ts := [tk0 CASE_KW; (INTEGER, -1); tk0 COMMA; (INTEGER, -2); tk0 COLON; tk0 SEMI]).
  set (s := new_ast2 CASE_KW (new_ast2 COMMA (new_ast0 INTEGER (-1)) (new_ast0 INTEGER (-2))) (Raw 0)).
  assert (X : SParses false j00 SStmt (td00, ts, (false, 0)) (XA s, (td00, [], (false, 0)))) by (exists 40%nat; vm_compute; reflexivity).
  split; [eexists; exact X|]. intros o s' D.
  destruct (c51_decides_statement_partial false td00 j00 ts (false, 0) s') as [_ K].
  { split; [nt|]. cbn [carried ts tk0]. repeat split; intros; discriminate. }
  destruct (K (ex_intro _ o D)) as [[v' E'] S]. pose proof (c49_deterministic _ _ _ _ _ _ X E') as Y. injection Y as <- _. vm_compute in S. discriminate.
Qed.
(* f(int a int b,): parameters without a comma between them, and one at the end *)
Theorem c51_parameters_refuted : exists l v,
  Parses false td00 j00 (NParams []) [tk0 INT_KW; (IDENTIFIER, 1); tk0 INT_KW; (IDENTIFIER, 2); tk0 COMMA; tk0 RPAR] (false, 0) (RL l, ([], v)) /\ length l = 2%nat.
Proof. do 2 eexists. split; [exists 40%nat; vm_compute; reflexivity|reflexivity]. Qed.

(* Non-vacuity: if (a[1] = b, c) while (d) { e = f(g, -h) ? 2 : i; goto L; } else L: return; *)
Definition acc_tokens : list token :=
  [tk0 IF_KW; tk0 LPAR; (IDENTIFIER, 1); tk0 LBRACK; (INTEGER, -1); tk0 RBRACK; tk0 EQ; (IDENTIFIER, 2); tk0 COMMA; (IDENTIFIER, 3); tk0 RPAR;
   tk0 WHILE_KW; tk0 LPAR; (IDENTIFIER, 4); tk0 RPAR; tk0 LBRACE; (IDENTIFIER, 5); tk0 EQ; (IDENTIFIER, 6); tk0 LPAR; (IDENTIFIER, 7); tk0 COMMA; tk0 MINUS; (IDENTIFIER, 8); tk0 RPAR;
   tk0 QUEST; (INTEGER, -2); tk0 COLON; (IDENTIFIER, 9); (SEMI, 9); tk0 GOTO_KW; (IDENTIFIER, 10); (SEMI, 10); tk0 RBRACE; tk0 ELSE_KW; (IDENTIFIER, 10); tk0 COLON; tk0 RETURN_KW; tk0 SEMI].
Lemma acc_plain : plain acc_tokens.
Proof. split; [nt|]. cbn [carried acc_tokens tk0]. repeat split; intros; try discriminate; reflexivity. Qed.
Theorem c51_instance : exists s o, GrammarStmt.H false td00 j00 (HStmt o) acc_tokens (QE s) /\ get_op s = IF_KW.
Proof.
  assert (X : exists s v, SParses false j00 SStmt (td00, acc_tokens, (false, 0)) (XA s, (td00, [], v)) /\ c_shaped s = true /\ get_op s = IF_KW).
  { do 2 eexists. split; [exists 60%nat; vm_compute; reflexivity|]. split; reflexivity. }
  destruct X as (s & v & X & S & O). destruct (c51_statement_partial _ _ _ _ _ _ _ _ _ acc_plain X S) as (_ & p & o & E & D & _).
  rewrite app_nil_r in E. subst p. exists s, o. split; [exact D|exact O].
Qed.
