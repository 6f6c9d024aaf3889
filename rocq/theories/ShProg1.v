(** * Whole programs compiled to shell scripts: expressions and single commands *)
From Coq Require Import ZArith List Lia Bool.
From Verif Require Import Base Numerals Output Ast Parse ShArith ShExpr ShCSem ShEqs ShFacts ShFacts2 ShSyn ShSem ShMain ShMain6 ShStmt ShProg ShLock.
Import ListNotations.
Open Scope Z_scope.
Local Notation length := List.length.

Lemma decimal_first k : exists c r, decimal k = c :: r /\ (c = 45 \/ 48 <= c <= 57).
Proof.
  destruct (Z.ltb_spec k 0) as [L|L].
  - rewrite decimal_neg by lia. eexists _, _. split; [reflexivity|lia].
  - destruct (decimal_ok k L) as [V _]. destruct (decimal k) as [|c r] eqn:E; [discriminate|].
    exists c, r. split; [reflexivity|]. pose proof (numeral_dig 10 (c :: r) k c r ltac:(lia) V eq_refl) as D.
    unfold is_dig in D. rewrite andb_true_iff, !Z.leb_le in D. lia.
Qed.
Lemma undec_decimal v : undec (decimal v) = Some v.
Proof.
  destruct (Z.ltb_spec v 0) as [L|L].
  - rewrite decimal_neg by lia. unfold undec. destruct (decimal_ok (- v) ltac:(lia)) as [V _]. rewrite V. f_equal. lia.
  - destruct (decimal_ok v L) as [V _]. destruct (decimal_first v) as (c & r & E & H). pose proof (decimal_word v L) as W.
    rewrite E in *. destruct H as [->|H]; [cbn in W; discriminate|].
    unfold undec. assert (X : c <> 45) by lia. clear - V X.
    destruct c as [|p|p]; try exact V. repeat (destruct p as [p|p|]; try exact V). contradiction X. reflexivity.
Qed.
Lemma stk_inj j k : stk j = stk k -> j = k.
Proof. unfold stk. intros E. apply app_inv_head in E. apply decimal_inj_all. exact E. Qed.
Lemma stk_own k : ~ In (stk k) [SP; TMP; CODE; none_name].
Proof.
  destruct (decimal_first k) as (c & r & E & H). unfold stk. rewrite E. unfold SP, TMP, CODE, none_name.
  cbn [In app]. intros [X|[X|[X|[X|[]]]]]; injection X as X; try discriminate; lia.
Qed.

Section Sim.
Variables (N : Z) (sev : list item -> vars -> option (list Z * vars)) (ro : name -> option Z).
Variables (vn mn zn : nat -> name) (moff zsz : nat -> Z).
Hypothesis SET : setting N sev ro vn mn zn moff zsz.
Notation cev := (cev moff zsz). Notation clv := (clv moff zsz).
Notation hst := (hst moff zsz). Notation hlv := (hlv moff zsz).
Notation rv := (comp_rvalue_go vn mn zn). Notation lv := (comp_lvalue vn mn zn).
Notation nm := (nm vn). Notation cst := (cst mn zn moff zsz). Notation agree := (agree vn). Notation off := (off vn).
Notation overlay := (overlay ro).
Notation wexp := (wexp sev ro). Notation wval := (wval sev ro). Notation wvals := (wvals sev ro).
Notation cval := (cval moff zsz true). Notation clval := (clval moff zsz true). Notation cargs := (cargs moff zsz true).
Let NK : names_ok vn mn zn moff zsz := st_names _ _ _ _ _ _ _ _ SET.
Let HN : 32 <= N := st_bits _ _ _ _ _ _ _ _ SET.
Let ALL e : Ph N vn mn zn moff zsz e := Ph_all N HN vn mn zn moff zsz NK e.
Let ACT t g l g1 : exp N t g l g1 -> sev t g = Some (l, g1) := st_shell _ _ _ _ _ _ _ _ SET t g l g1.

Lemma ro_nm l : ro (nm l) = None.
Proof. apply (st_rw _ _ _ _ _ _ _ _ SET). left. eauto. Qed.
Lemma ro_own n : In n [SP; TMP; CODE; none_name] -> ro n = None.
Proof. intros H. apply (st_rw _ _ _ _ _ _ _ _ SET). auto. Qed.
Lemma ro_stk k : ro (stk k) = None.
Proof. apply (st_rw _ _ _ _ _ _ _ _ SET). right. right. eauto. Qed.
Lemma nm_own l : ~ In (nm l) [SP; TMP; CODE; none_name].
Proof.
  destruct l as [x|a]; [apply (st_own _ _ _ _ _ _ _ _ SET)|]. cbn [ShSem.nm].
  destruct (decimal_first a) as (c & r & E & H). rewrite E. unfold SP, TMP, CODE, none_name. cbn [In].
  intros [X|[X|[X|[X|[]]]]]; injection X as X; lia.
Qed.
Lemma nm_stk l k : nm l <> stk k.
Proof.
  destruct l as [x|a]; [apply (st_own _ _ _ _ _ _ _ _ SET)|]. cbn [ShSem.nm]. unfold stk. cbn [app].
  destruct (decimal_first a) as (c & r & E & H). rewrite E. intros X. injection X as X. lia.
Qed.
Lemma nm_sp l : nm l <> SP. Proof. intros E. apply (nm_own l). rewrite E. cbn. tauto. Qed.
Lemma nm_tmp l : nm l <> TMP. Proof. intros E. apply (nm_own l). rewrite E. cbn. tauto. Qed.
Lemma nm_none l : nm l <> none_name. Proof. intros E. apply (nm_own l). rewrite E. cbn. tauto. Qed.
Lemma nm_code l : nm l <> CODE. Proof. intros E. apply (nm_own l). rewrite E. cbn. tauto. Qed.

(** ** The variables that a function leaves alone *)
Definition keep (sp : Z) (n : name) : Prop :=
  (forall l, nm l <> n) /\ n <> SP /\ n <> TMP /\ n <> none_name /\ ro n = None /\ forall k, sp < k -> n <> stk k.
Definition gs (sp : Z) (G0 : vars) (s : store) (g : vars) : Prop :=
  (forall l, g (nm l) = s l) /\ g SP = sp /\ forall n, keep sp n -> g n = G0 n.
Lemma over_id n g : ro n = None -> overlay g n = g n.
Proof. intros H. unfold ShProg.overlay. rewrite H. reflexivity. Qed.
Lemma over_cst g : cst (overlay g).
Proof. intros n v H. unfold ShProg.overlay. rewrite (st_ro _ _ _ _ _ _ _ _ SET n v H). reflexivity. Qed.
Lemma gs_over sp G0 s g : gs sp G0 s g -> gs sp G0 s (overlay g).
Proof.
  intros (A & B & C). split; [|split].
  - intros l. rewrite over_id by apply ro_nm. apply A.
  - rewrite over_id by (apply ro_own; cbn; tauto). exact B.
  - intros n K. rewrite over_id by apply K. apply C, K.
Qed.
Lemma gs_agree sp G0 s g S : gs sp G0 s g -> agree S g s.
Proof. intros (A & _) l _. apply A. Qed.
Lemma gs_after sp G0 s g W s' g' : gs sp G0 s g -> same W s s' -> agree W g' s' -> off W g g' -> gs sp G0 s' g'.
Proof.
  intros (A & B & C) S Ag O. split; [|split].
  - intros l. destruct (in_dec loc_eq_dec l W) as [I|I]; [apply Ag, I|].
    rewrite (off_nm vn mn zn moff zsz NK _ _ _ _ O I), A. symmetry. apply S, I.
  - rewrite O; [exact B|]. intros l _. apply nm_sp.
  - intros n K. rewrite O; [apply C, K|]. intros l _. apply K.
Qed.
Lemma gs_ext sp G0 s s' g : (forall l, s' l = s l) -> gs sp G0 s g -> gs sp G0 s' g.
Proof. intros E (A & B & C). split; [|auto]. intros l. rewrite A. symmetry. apply E. Qed.
Lemma gs_set sp G0 s g l v : gs sp G0 s g -> gs sp G0 (upd l v s) (setv (nm l) v g).
Proof.
  intros (A & B & C). split; [|split].
  - intros m. unfold upd. destruct (loc_eq_dec m l) as [->|H]; [apply setv_same|].
    rewrite setv_other; [apply A|]. intros E. apply H. eapply nm_inj; eauto.
  - rewrite setv_other; [exact B|]. apply not_eq_sym, nm_sp.
  - intros n K. rewrite setv_other; [apply C, K|]. apply not_eq_sym, K.
Qed.

(** ** Words *)
Lemma cval_inv e s x : cval e s = Some x -> cev e s = Some x /\ exists H V, hst e s = Some (H, V).
Proof.
  unfold ShProg.cval. destruct (cev e s) as [y|]; [|discriminate]. destruct (hst e s) as [[H V]|] eqn:E; [|discriminate].
  intros X. split; [exact X|]. eauto.
Qed.
Lemma clval_inv e s x : clval e s = Some x -> clv e s = Some x /\ exists H V, hlv e s = Some (H, V).
Proof.
  unfold ShProg.clval. destruct (clv e s) as [y|]; [|discriminate]. destruct (hlv e s) as [[H V]|] eqn:E; [|discriminate].
  intros X. split; [exact X|]. eauto.
Qed.
Lemma word_step e o sp G0 s g v s' R W : okx e = true -> gs sp G0 s g -> cval e s = Some (v, s', R, W) ->
  exists g1, sev (rv e false o) (overlay g) = Some (decimal v, g1) /\ gs sp G0 s' g1.
Proof.
  intros Ok G E. apply cval_inv in E as [E (H & V & Eh)].
  destruct (ALL e) as (_ & B & _). pose proof (gs_over _ _ _ _ G) as Go.
  destruct (B o s v s' R W H V (overlay g) Ok E Eh (over_cst g) (gs_agree _ _ _ _ _ Go)) as (g3 & X & A3 & O3).
  exists g3. split; [apply ACT, X|]. eapply gs_after; [exact Go|eapply same_r; eauto|exact A3|exact O3].
Qed.
Lemma arith_step e sp G0 s g v s' R W : okx e = true -> gs sp G0 s g -> cval e s = Some (v, s', R, W) ->
  exists g1, sev [Ar (rv e true 0)] (overlay g) = Some (decimal v, g1) /\ gs sp G0 s' g1.
Proof.
  intros Ok G E. apply cval_inv in E as [E (H & V & Eh)].
  destruct (ALL e) as (A & _). pose proof (gs_over _ _ _ _ G) as Go.
  destruct (opd_run N vn mn zn moff zsz NK _ _ _ R W V s s' v (overlay g)
    (A 0 s v s' R W H V (overlay g) Ok E Eh (over_cst g) (gs_agree _ _ _ _ _ Go)) (plev_le e 0 Ok) (over_cst g) (gs_agree _ _ _ _ _ Go))
    as (g3 & X & A3 & O3).
  exists g3. split; [apply ACT, ari_base, X|]. eapply gs_after; [exact Go|eapply same_r; eauto|exact A3|exact O3].
Qed.
Lemma lval_step e sp G0 s g l s' R W : ShCSem.okl e = true -> gs sp G0 s g -> clval e s = Some (l, s', R, W) ->
  exists g1, sev (lv e) (overlay g) = Some (nm l, g1) /\ is_ident (nm l) /\ gs sp G0 s' g1.
Proof.
  intros Ok G E. apply clval_inv in E as [E (H & V & Eh)].
  destruct (ALL e) as (_ & _ & L & _). pose proof (gs_over _ _ _ _ G) as Go.
  destruct (L s l s' R W H V (overlay g) Ok E Eh (over_cst g) (gs_agree _ _ _ _ _ Go)) as (g3 & X & I & _ & A3 & O3).
  exists g3. split; [apply ACT, X|]. split; [exact I|].
  eapply gs_after; [exact Go|eapply same_l; eauto|exact A3|exact O3].
Qed.
(* outside of a comparison with =, the operand of = is compiled as on its own *)
Lemma rv_eq0 e : rv e true EQ = rv e true 0.
Proof. induction e; try reflexivity; try exact IHe; destruct e; reflexivity. Qed.
Lemma ret_step e r sp G0 s g v s' R W : okx e = true -> commalike e = false -> is_ident r -> gs sp G0 s g ->
  cval e s = Some (v, s', R, W) ->
  exists g1, sev [Ar (chs r ++ op_to_str EQ ++ rv e true 0)] (overlay g) = Some (decimal v, setv r v g1) /\ gs sp G0 s' g1.
Proof.
  intros Ok Nc I G E. apply cval_inv in E as [E (H & V & Eh)].
  destruct (ALL e) as (A & _). pose proof (gs_over _ _ _ _ G) as Go.
  pose proof (A EQ s v s' R W H V (overlay g) Ok E Eh (over_cst g) (gs_agree _ _ _ _ _ Go)) as (g1 & f & T & O & In & M).
  destruct (full_sem vn mn zn moff zsz NK R W V s s' v (overlay g) g1 f) as (g3 & Ef & A3 & O3);
    [apply over_cst|apply (gs_agree _ _ _ _ _ Go)|exact O|exact M|exact In|].
  exists g3. split; [|eapply gs_after; [exact Go|eapply same_r; eauto|exact A3|exact O3]].
  apply ACT, ari_base. rewrite <- rv_eq0.
  pose proof (txt_asg N EQ (chs r) r (rv e true EQ) (plev e EQ) _ (overlay g) (overlay g) g1 f
    ltac:(cbn; tauto) I (comma_lev e Nc Ok) (exp_chs N r (overlay g)) T) as (ch & X & S).
  eapply syn_ari; [exact X|exact S|lia|]. unfold dasg. rewrite Ef. reflexivity.
Qed.
End Sim.
