(** * Expressions compiled to shell arithmetic: operators, and the induction *)
From Coq Require Import ZArith List Lia Bool.
From Verif Require Import Base Numerals Output Ast Parse ShArith ShExpr ShCSem ShEqs ShFacts ShFacts2 ShSyn ShSem ShMain ShMain2.
Import ListNotations.
Open Scope Z_scope.

Section Main.
Variable N : Z.
Hypothesis HN : 32 <= N.
Variables (vn mn zn : nat -> name) (moff zsz : nat -> Z).
Notation cev := (cev moff zsz). Notation clv := (clv moff zsz).
Notation hst := (hst moff zsz). Notation hlv := (hlv moff zsz). Notation had := (had moff zsz).
Notation hz := (hz moff zsz). Notation zlv := (zlv moff zsz). Notation zad := (zad moff zsz).
Notation rv := (comp_rvalue_go vn mn zn). Notation lv := (comp_lvalue vn mn zn). Notation la := (comp_lvalue_address vn mn zn).
Notation nm := (nm vn). Notation cst := (cst mn zn moff zsz). Notation agree := (agree vn). Notation off := (off vn).
Notation Sem := (Sem vn mn zn moff zsz). Notation SynE := (SynE N). Notation Txt := (Txt N).
Notation Opd := (Opd N vn mn zn moff zsz). Notation Zpd := (Zpd N vn).
Hypothesis NK : names_ok vn mn zn moff zsz.
Notation PhA := (PhA N vn mn zn moff zsz). Notation PhB := (PhB N vn mn zn moff zsz). Notation PhL := (PhL N vn mn zn moff zsz).
Notation PhD := (PhD N vn mn zn moff zsz). Notation PhZ := (PhZ N vn mn zn moff zsz). Notation PhZL := (PhZL N vn mn zn moff zsz).
Notation PhZD := (PhZD N vn mn zn moff zsz). Notation Ph := (Ph N vn mn zn moff zsz).

Ltac ue := cbv beta iota.
Lemma opd_m c lev (m m' : Prop) R W V s s' v g0 : (m -> m') -> Opd c lev m R W V s s' v g0 -> Opd c lev m' R W V s s' v g0.
Proof. intros M (g1 & f & T & X). exists g1, f. split; [eapply txt_m; eauto|exact X]. Qed.
Lemma opd_wrap c l (m mm : Prop) o i R W V s s' v g0 : (l <= 14)%nat -> l <> 0%nat -> Opd c l m R W V s s' v g0 ->
  Opd (wrap_if_needed true true c o i) (if wrapb o i then 0%nat else l) ((if wrapb o i then 0%nat else l) = 0%nat -> mm) R W V s s' v g0.
Proof. intros H1 H2 (g1 & f & T & X). exists g1, f. split; [eapply txt_wrap; eauto|exact X]. Qed.
Lemma zpd_wrap c l (m mm : Prop) o i g0 : (l <= 14)%nat -> l <> 0%nat -> Zpd c l m g0 ->
  Zpd (wrap_if_needed true true c o i) (if wrapb o i then 0%nat else l) ((if wrapb o i then 0%nat else l) = 0%nat -> mm) g0.
Proof. intros H1 H2 (g1 & f & T & X). exists g1, f. split; [eapply txt_wrap; eauto|exact X]. Qed.
Lemma zpd_m' c lev (m m' : Prop) g : (m -> m') -> Zpd c lev m g -> Zpd c lev m' g.
Proof. intros M (g1 & f & T & O). exists g1, f. split; [eapply txt_m; eauto|auto]. Qed.
Lemma sem_shift R W V s s' v g1 g1' f : off [] g1 g1' -> Sem R W V s s' v g1 f -> Sem R W V s s' v g1' f.
Proof.
  intros O S g2 C HR HV. apply S; auto. intros l Hl. rewrite HV by auto.
  apply (off_nm _ _ _ _ _ NK _ _ _ _ O). intros [].
Qed.
Lemma not_int e : (exists n, e = XInt n) \/ forall n, e <> XInt n.
Proof. destruct e; try (right; intros m; discriminate). left; eauto. Qed.

(** ** Unary operators *)
Lemma unop_cases op : existsb (Z.eqb op) [MINUS; TILDE; EXCL] = true ->
  In op [MINUS; TILDE; EXCL] /\ op <> 0 /\ op <> EQ /\ is_associative_operator op = false.
Proof.
  intros H. apply existsb_exists in H as (x & I & E). apply Z.eqb_eq in E. subst x. split; [exact I|].
  cbn in I. destruct I as [<- | [<- | [<- | []]]]; split; [discriminate|split; [discriminate|reflexivity]|discriminate|split; [discriminate|reflexivity]|discriminate|split; [discriminate|reflexivity]].
Qed.
Lemma opd_un op c m R W V s s' v w g0 : In op [MINUS; TILDE; EXCL] -> (op = MINUS -> ~ m) -> cunary op v = Some w ->
  Opd c 0 m R W V s s' v g0 -> Opd (chs [op] ++ c) 0 (op = MINUS) R W V s s' w g0.
Proof.
  intros I M E (g1 & f & T & O & Iv & S). exists g1, (dun N op f). split; [apply (txt_un N op c m); auto|].
  split; [auto|]. split; [auto|]. intros g2 C HR HV. destruct (S g2 C HR HV) as (g3 & X & Y). exists g3. split; [|exact Y].
  unfold dun. rewrite X, (cunary_unary N HN _ _ _ E). reflexivity.
Qed.
Lemma decimal_neg n : 0 < n -> decimal (- n) = 45 :: decimal n.
Proof.
  intros H. unfold decimal. destruct (Z.ltb_spec (- n) 0); [|lia]. destruct (Z.ltb_spec n 0); [lia|].
  rewrite Z.opp_involutive. reflexivity.
Qed.
Lemma wrap_int_neg n : 0 <= n < 2 ^ 31 -> wrap_int (- n) = chs (decimal (- n)).
Proof. intros H. unfold wrap_int. rewrite putint_decimal; [reflexivity|]. unfold int_range. lia. Qed.
Lemma txt_negint n g : 0 <= n < 2 ^ 31 -> Txt (wrap_int (- n)) 0 True g g (fun s => Some (- n, s)).
Proof.
  intros H. rewrite wrap_int_neg by auto. destruct (Z.eq_dec n 0) as [->|Hn].
  - eapply txt_m; [|apply (txt_num N [48] 0 g); [reflexivity|apply w_zero]]. tauto.
  - rewrite decimal_neg by lia.
    assert (T : Txt (chs (decimal n)) 0 False g g (fun s => Some (n, s))).
    { apply txt_num; [apply decimal_word; lia|apply decimal_tok; lia]. }
    assert (T2 : Txt (chs [MINUS] ++ chs (decimal n)) 0 (MINUS = MINUS) g g (dun N MINUS (fun s => Some (n, s)))).
    { eapply txt_un; [cbn; tauto| |exact T]. tauto. }
    destruct T2 as (ch & X & S). exists ch. split; [exact X|]. eapply syn_m; [|eapply syn_deq; [|exact S]]; [auto|].
    intros s. unfold dun. cbn beta iota. replace (unary N MINUS n) with (Some (wrapN N (- n))) by reflexivity.
    rewrite wrapN_int by lia. reflexivity.
Qed.
Lemma ph_negint op n : Ph (XUn op (XInt n)).
Proof.
  assert (K : okx (XUn op (XInt n)) = true -> op = MINUS /\ 0 <= n < 2 ^ 31).
  { intros Ok. rewrite okx_eq in Ok. rewrite !andb_true_iff in Ok. destruct Ok as [[[O1 O2] O3] O4].
    rewrite okx_eq in O2. apply lit_range in O2. split; [|exact O2].
    destruct (Z.eqb_spec op MINUS); [auto|discriminate]. }
  assert (A : PhA (XUn op (XInt n))).
  { intros o s v s' R W H V g0 Ok E1 E2 C Ag. destruct (K Ok) as [-> Hn]. rewrite cev_eq in E1. rewrite hst_eq in E2.
    cbv beta iota in E1, E2. rewrite cev_eq in E1. rewrite hst_eq in E2. cbv beta iota in E1, E2. unfold cmap in E1.
    replace (cunary MINUS n) with (chk (- n)) in E1 by reflexivity.
    destruct (chk (- n)) as [w|] eqn:Ew; [|discriminate]. apply chk_spec in Ew as [-> _]. inversion E1; inversion E2; subst.
    rewrite comp_rvalue_go_eq. ue. cbn [plev].
    eapply opd_ret; [eapply txt_m; [|apply txt_negint; exact Hn]|]; auto. }
  apply Ph_plain; try reflexivity; auto.
  - intros o s v s' R W H V g0 Ok E1 E2 C Ag. destruct (K Ok) as [-> Hn]. rewrite cev_eq in E1. cbv beta iota in E1.
    rewrite cev_eq in E1. cbv beta iota in E1. unfold cmap in E1.
    replace (cunary MINUS n) with (chk (- n)) in E1 by reflexivity.
    destruct (chk (- n)) as [w|] eqn:Ew; [|discriminate]. apply chk_spec in Ew as [-> _]. inversion E1; subst.
    exists g0. split; [rewrite comp_rvalue_go_eq; ue; rewrite wrap_int_neg by exact Hn; apply exp_chs|].
    split; [intros l []|apply off_refl].
  - intros o s H g0 Ok E C Ag. destruct (K Ok) as [-> Hn]. rewrite comp_rvalue_go_eq. ue. cbn [plev].
    eapply zpd_ret. eapply txt_m; [|apply txt_negint; exact Hn]. auto.
Qed.
Lemma rv_un op e arith o : (forall n, e <> XInt n) ->
  rv (XUn op e) arith o = wrap_if_needed false arith (chs [op] ++ rv e true op) o op.
Proof. intros H. rewrite comp_rvalue_go_eq. destruct e; try reflexivity. destruct (H n); reflexivity. Qed.
Lemma ph_un op e : Ph e -> Ph (XUn op e).
Proof.
  intros (A & B & L & D & Z & ZL & ZD). destruct (not_int e) as [[n ->] | NI]; [apply ph_negint|].
  assert (K : okx (XUn op e) = true -> okx e = true /\ In op [MINUS; TILDE; EXCL] /\ plev e op = 0%nat /\
     (op = MINUS -> ~ (plev e op = 0%nat -> minus e = true))).
  { intros Ok. rewrite okx_eq in Ok. rewrite !andb_true_iff in Ok. destruct Ok as [[[O1 O2] O3] O4].
    destruct (unop_cases op O1) as (I & N0 & N1 & N2). apply negb_true_iff in O3. split; [auto|]. split; [auto|].
    assert (P0 : plev e op = 0%nat).
    { destruct (plev_under e op N0 N1 O2) as [P | [[P _] | [P _]]]; auto; congruence. }
    split; [auto|]. intros E X. subst op. specialize (X P0). rewrite X in O4. discriminate. }
  assert (A' : PhA (XUn op e)).
  { intros o s v s' R W H V g0 Ok E1 E2 C Ag. destruct (K Ok) as (Oe & I & P0 & M). rewrite cev_eq in E1. rewrite hst_eq in E2.
    cbv beta iota in E1, E2. unfold cmap in E1. destruct (cev e s) as [[[[w s1] R1] W1]|] eqn:Ee; [|discriminate].
    destruct (cunary op w) as [w'|] eqn:Ew; [|discriminate]. inversion E1; subst.
    rewrite rv_un by auto. cbn [wrap_if_needed plev andb]. unfold wrap_if_needed. cbn [andb].
    pose proof (A op s w s' R W H V g0 Oe Ee E2 C Ag) as X. rewrite P0 in X.
    eapply opd_m; [|eapply opd_un; [exact I| |exact Ew|exact X]].
    - intros -> _. reflexivity.
    - intros E. specialize (M E). rewrite P0 in M. exact M. }
  apply Ph_plain; try reflexivity; auto.
  - apply B_of_A; auto; intros; try (cbn [plev]; lia). rewrite !rv_un by auto. reflexivity.
  - intros o s H g0 Ok E C Ag. destruct (K Ok) as (Oe & I & P0 & M). rewrite hz_eq in E. cbv beta iota in E.
    destruct (Z op s H g0 Oe E C Ag) as (g1 & f & T & O). rewrite P0 in T.
    rewrite rv_un by auto. unfold wrap_if_needed. cbn [andb plev].
    exists g1, (dun N op f). split; [|auto]. eapply txt_m; [|eapply txt_un; [exact I| |exact T]].
    + intros -> _. reflexivity.
    + intros E'. specialize (M E'). rewrite P0 in M. exact M.
Qed.
End Main.
