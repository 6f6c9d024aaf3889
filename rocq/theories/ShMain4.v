(** * Expressions compiled to shell arithmetic: increments, assignments, binary operators *)
From Coq Require Import ZArith List Lia Bool.
From Verif Require Import Base Numerals Output Ast Parse ShArith ShExpr ShCSem ShEqs ShFacts ShFacts2 ShSyn ShSem ShMain ShMain2 ShMain3.
Import ListNotations.
Open Scope Z_scope.

Section Main.
Variable N : Z.
Hypothesis HN : 32 <= N.
Variables (vn mn zn : nat -> name) (moff zsz : nat -> Z).
Notation cev := (cev moff zsz). Notation clv := (clv moff zsz).
Notation hst := (hst moff zsz). Notation hlv := (hlv moff zsz). Notation had := (had moff zsz).
Notation hz := (hz moff zsz). Notation zlv := (zlv moff zsz). Notation zad := (zad moff zsz).
Notation rv := (comp_rvalue_go vn mn zn). Notation lv := (comp_lvalue vn mn zn). Notation la := (comp_lvalue_address vn mn zn).
Notation nm := (nm vn). Notation cst := (cst mn zn moff zsz). Notation agree := (agree vn). Notation off := (off vn).
Notation Sem := (Sem vn mn zn moff zsz). Notation SynE := (SynE N). Notation Txt := (Txt N).
Notation Opd := (Opd N vn mn zn moff zsz). Notation Zpd := (Zpd N vn).
Hypothesis NK : names_ok vn mn zn moff zsz.
Notation PhA := (PhA N vn mn zn moff zsz). Notation PhB := (PhB N vn mn zn moff zsz). Notation PhL := (PhL N vn mn zn moff zsz).
Notation PhD := (PhD N vn mn zn moff zsz). Notation PhZ := (PhZ N vn mn zn moff zsz). Notation PhZL := (PhZL N vn mn zn moff zsz).
Notation PhZD := (PhZD N vn mn zn moff zsz). Notation Ph := (Ph N vn mn zn moff zsz).

Ltac ue := cbv beta iota.
Lemma nm_neq a b : a <> b -> nm a <> nm b.
Proof. intros H E. apply H. eapply nm_inj; eauto. Qed.
(* an update of one location *)
Lemma upd_agree l v W g s : agree W g s -> agree (l :: W) (setv (nm l) v g) (upd l v s).
Proof.
  intros A m Hm. destruct (loc_eq_dec m l) as [->|Hn].
  - rewrite setv_same, upd_same. reflexivity.
  - rewrite setv_other by (apply nm_neq; auto). rewrite upd_other by auto. apply A. destruct Hm; [congruence|auto].
Qed.
Lemma upd_off l v W g g' : off W g g' -> off (l :: W) g (setv (nm l) v g').
Proof.
  intros O n Hn. rewrite setv_other; [apply O; intros m Hm; apply Hn; right; auto|]. intros E. apply (Hn l); [left; auto|auto].
Qed.

(** ** Increments *)
Definition incop (inc : bool) : Z := if inc then PLUS_EQ else MINUS_EQ.
Lemma inc_text (inc : bool) : chs (if inc then [32; 43; 61; 32; 49] else [32; 45; 61; 32; 49]) = op_to_str (incop inc) ++ chs [49].
Proof. destruct inc; reflexivity. Qed.
Lemma post_text (inc : bool) (c : list item) : chs [40] ++ c ++ chs (if inc then [32; 43; 61; 32; 49; 41; 32; 45; 32; 49] else [32; 45; 61; 32; 49; 41; 32; 43; 32; 49])
  = (chs [40] ++ (c ++ op_to_str (incop inc) ++ chs [49]) ++ chs [41]) ++ op_to_str (if inc then MINUS else PLUS) ++ chs [49].
Proof. destruct inc; cbn; rewrite <- !app_assoc; reflexivity. Qed.
Lemma txt_one g : Txt (chs [49]) 0 False g g (fun s => Some (1, s)).
Proof. apply txt_num; [reflexivity|]. eapply w_dec; [reflexivity|discriminate|reflexivity|reflexivity]. Qed.
Lemma txt_par c l m g0 g1 f : (l <= 14)%nat -> Txt c l m g0 g1 f -> Txt (chs [40] ++ c ++ chs [41]) 0 False g0 g1 f.
Proof.
  intros H (ch & X & S). exists ([40] ++ ch ++ [41]). split; [|eapply syn_par; eauto].
  eapply exp_app; [apply exp_chs|]. eapply exp_app; [exact X|apply exp_chs].
Qed.
Lemma inc_asg inc : In (incop inc) assign_ops.
Proof. destruct inc; vm_compute; tauto. Qed.
Lemma txt_inc c n g0 g1 inc : is_ident n -> exp N c g0 n g1 ->
  Txt (c ++ op_to_str (incop inc) ++ chs [49]) 13 False g0 g1 (dasg N (incop inc) n (fun s => Some (1, s))).
Proof. intros I X. eapply (txt_asg N); [apply inc_asg|exact I|apply Nat.le_0_l|exact X|apply txt_one]. Qed.
Lemma txt_post c n g0 g1 inc : is_ident n -> exp N c g0 n g1 ->
  Txt ((chs [40] ++ (c ++ op_to_str (incop inc) ++ chs [49]) ++ chs [41]) ++ op_to_str (if inc then MINUS else PLUS) ++ chs [49]) 3 False g0 g1
    (dbin N (if inc then MINUS else PLUS) (dasg N (incop inc) n (fun s => Some (1, s))) (fun s => Some (1, s))).
Proof.
  intros I X. assert (L : (13 <= 14)%nat) by lia. pose proof (txt_par _ _ _ _ _ _ L (txt_inc c n g0 g1 inc I X)) as T.
  destruct inc.
  - refine (txt_bin N HN MINUS _ _ _ _ _ _ _ _ _ _ _ _ _ _ T (txt_one _)); [reflexivity|vm_compute; lia|vm_compute; lia].
  - refine (txt_bin N HN PLUS _ _ _ _ _ _ _ _ _ _ _ _ _ _ T (txt_one _)); [reflexivity|vm_compute; lia|vm_compute; lia].
Qed.
Lemma one_spec inc x v : one inc x = Some v ->
  arith N (if inc then PLUS else MINUS) x 1 = Some v /\ arith N (if inc then MINUS else PLUS) v 1 = Some x.
Proof.
  unfold one. destruct (inint x) eqn:I; [|discriminate]. intros E. apply chk_spec in E as [-> R].
  unfold inint in I. rewrite andb_true_iff, Z.leb_le, Z.ltb_lt in I.
  destruct inc.
  - split.
    + replace (arith N PLUS x 1) with (Some (wrapN N (x + 1))) by reflexivity. rewrite wrapN_int by lia. reflexivity.
    + replace (arith N MINUS (x + 1) 1) with (Some (wrapN N (x + 1 - 1))) by reflexivity. rewrite wrapN_int by lia. f_equal; lia.
  - split.
    + replace (arith N MINUS x 1) with (Some (wrapN N (x - 1))) by reflexivity. rewrite wrapN_int by lia. reflexivity.
    + replace (arith N PLUS (x - 1) 1) with (Some (wrapN N (x - 1 + 1))) by reflexivity. rewrite wrapN_int by lia. f_equal; lia.
Qed.
Lemma dasg_inc inc n g x v : g n = x -> one inc x = Some v ->
  dasg N (incop inc) n (fun s => Some (1, s)) g = Some (v, setv n v g).
Proof.
  intros E H. apply one_spec in H as [H _]. unfold dasg. destruct inc; cbn [incop].
  - replace (PLUS_EQ =? EQ) with false by reflexivity. replace (asg_op PLUS_EQ) with (Some PLUS) by reflexivity. rewrite E, H. reflexivity.
  - replace (MINUS_EQ =? EQ) with false by reflexivity. replace (asg_op MINUS_EQ) with (Some MINUS) by reflexivity. rewrite E, H. reflexivity.
Qed.
Lemma modify_inv rl f post v s' R W : modify rl f post = Some (v, s', R, W) ->
  exists l s1 R0 W0 x, rl = Some (l, s1, R0, W0) /\ ~ In l W0 /\ f (s1 l) = Some x /\
    v = (if post then s1 l else x) /\ s' = upd l x s1 /\ R = l :: R0 /\ W = l :: W0.
Proof.
  unfold modify. destruct rl as [[[[l s1] R0] W0]|]; [|discriminate]. destruct (mem l W0) eqn:M; [discriminate|].
  destruct (f (s1 l)) as [x|] eqn:E; [|discriminate]. intros X. inversion X; subst.
  exists l, s1, R0, W0, x. repeat split; auto using mem_false.
Qed.
(* what is seen when the update is evaluated *)
Lemma sem_modify l x W0 R0 s s1 g1 g2 : ~ In l W0 -> same W0 s s1 -> agree W0 g1 s1 ->
  (forall m, In m (l :: R0) -> ~ In m W0 -> g2 (nm m) = s m) -> (forall m, In m W0 -> g2 (nm m) = g1 (nm m)) ->
  g2 (nm l) = s1 l /\ agree (l :: W0) (setv (nm l) x g2) (upd l x s1) /\ off (l :: W0) g2 (setv (nm l) x g2).
Proof.
  intros Nl S A HR HV. split; [rewrite HR by (auto; left; auto); symmetry; apply S; auto|].
  split; [apply upd_agree; intros m Hm; rewrite HV by auto; apply A; auto|]. apply upd_off, off_refl.
Qed.
Lemma ph_pre inc e : Ph e -> Ph (XPre inc e).
Proof.
  intros (A & B & L & D & Z & ZL & ZD).
  assert (A' : PhA (XPre inc e)).
  { intros o s v s' R W H V g0 Ok E1 E2 C Ag. rewrite okx_eq in Ok. rewrite cev_eq in E1. rewrite hst_eq in E2. cbv beta iota in Ok, E1, E2.
    apply modify_inv in E1 as (l & s1 & R0 & W0 & x & E1 & Nl & Ex & -> & -> & -> & ->).
    destruct (L s l s1 R0 W0 H V g0 Ok E1 E2 C Ag) as (g1 & X & I & -> & A1 & O1).
    rewrite comp_rvalue_go_eq. ue. rewrite inc_text. cbn [plev].
    apply opd_wrap with (m := False); [lia|lia|].
    exists g1, (dasg N (incop inc) (nm l) (fun s => Some (1, s))). split; [apply txt_inc; auto|]. split; [auto|].
    split; [apply incl_tl, incl_refl|]. intros g2 C2 HR HV.
    destruct (sem_modify l x W0 R0 s s1 g1 g2 Nl (same_l _ _ e s l s1 R0 W0 E1) A1 HR HV) as (Hx & Y).
    exists (setv (nm l) x g2). split; [|exact Y]. eapply dasg_inc; eauto. }
  apply Ph_plain; try reflexivity; auto.
  - apply B_of_A; [exact NK|intros; apply plev_le; auto|reflexivity|exact A'].
  - intros o s H g0 Ok E C Ag. rewrite okx_eq in Ok. rewrite hz_eq in E. cbv beta iota in Ok, E.
    destruct (ZL s H g0 Ok E C Ag) as (g1 & n & X & I & O). rewrite comp_rvalue_go_eq. ue. rewrite inc_text. cbn [plev].
    apply zpd_wrap with (m := False); [lia|lia|]. exists g1, (dasg N (incop inc) n (fun s => Some (1, s))).
    split; [apply txt_inc; auto|auto].
Qed.
Lemma ph_post inc e : Ph e -> Ph (XPost inc e).
Proof.
  intros (A & B & L & D & Z & ZL & ZD).
  assert (A' : PhA (XPost inc e)).
  { intros o s v s' R W H V g0 Ok E1 E2 C Ag. rewrite okx_eq in Ok. rewrite cev_eq in E1. rewrite hst_eq in E2. cbv beta iota in Ok, E1, E2.
    apply modify_inv in E1 as (l & s1 & R0 & W0 & x & E1 & Nl & Ex & -> & -> & -> & ->).
    destruct (L s l s1 R0 W0 H V g0 Ok E1 E2 C Ag) as (g1 & X & I & -> & A1 & O1).
    rewrite comp_rvalue_go_eq. ue. unfold wrap_if_needed. cbn [andb]. rewrite post_text. cbn [plev].
    eexists g1, _. split; [eapply txt_m; [|apply txt_post; eauto]; tauto|]. split; [auto|].
    split; [apply incl_tl, incl_refl|]. intros g2 C2 HR HV.
    destruct (sem_modify l x W0 R0 s s1 g1 g2 Nl (same_l _ _ e s l s1 R0 W0 E1) A1 HR HV) as (Hx & Y).
    exists (setv (nm l) x g2). split; [|exact Y].
    pose proof (dasg_inc inc (nm l) g2 (s1 l) x Hx Ex) as K. apply one_spec in Ex as [_ Ex].
    unfold dbin. destruct inc.
    - replace (MINUS =? AMP_AMP) with false by reflexivity. replace (MINUS =? BAR_BAR) with false by reflexivity.
      unfold dop. rewrite K, Ex. reflexivity.
    - replace (PLUS =? AMP_AMP) with false by reflexivity. replace (PLUS =? BAR_BAR) with false by reflexivity.
      unfold dop. rewrite K, Ex. reflexivity. }
  apply Ph_plain; try reflexivity; auto.
  - apply B_of_A; [exact NK|intros; cbn [plev]; lia|reflexivity|exact A'].
  - intros o s H g0 Ok E C Ag. rewrite okx_eq in Ok. rewrite hz_eq in E. cbv beta iota in Ok, E.
    destruct (ZL s H g0 Ok E C Ag) as (g1 & n & X & I & O). rewrite comp_rvalue_go_eq. ue. unfold wrap_if_needed. cbn [andb]. rewrite post_text. cbn [plev].
    eexists g1, _. split; [eapply txt_m; [|apply txt_post; eauto]; tauto|auto].
Qed.
Lemma ph_addr e : Ph e -> Ph (XAddr e).
Proof.
  intros (A & B & L & D & Z & ZL & ZD).
  assert (A' : PhA (XAddr e)).
  { intros o s v s' R W H V g0 Ok E1 E2 C Ag. rewrite okx_eq in Ok. rewrite cev_eq in E1. rewrite hst_eq in E2. cbv beta iota in Ok, E1, E2.
    destruct (clv e s) as [[[[[y|a] s1] R0] W0]|] eqn:El; try discriminate. inversion E1; subst.
    rewrite comp_rvalue_go_eq. ue. unfold wrap_if_needed. cbn [andb plev].
    eapply opd_m; [|eapply D; eauto]. intros _ F. discriminate. }
  apply Ph_plain; try reflexivity; auto.
  - apply B_of_A; [exact NK|intros; cbn [plev]; lia|reflexivity|exact A'].
  - intros o s H g0 Ok E C Ag. rewrite okx_eq in Ok. rewrite hz_eq in E. cbv beta iota in Ok, E.
    rewrite comp_rvalue_go_eq. ue. unfold wrap_if_needed. cbn [andb plev].
    eapply zpd_m'; [|eapply ZD; eauto]. intros _ F. discriminate.
Qed.
End Main.
