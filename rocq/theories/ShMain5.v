(** * Expressions compiled to shell arithmetic: binary operators, assignments, conditionals; the induction *)
From Coq Require Import ZArith List Lia Bool.
From Verif Require Import Base Numerals Output Ast Parse ShArith ShExpr ShCSem ShEqs ShFacts ShFacts2 ShSyn ShSem ShMain ShMain2 ShMain3 ShMain4.
Import ListNotations.
Open Scope Z_scope.

Section Main.
Variable N : Z.
Hypothesis HN : 32 <= N.
Variables (vn mn zn : nat -> name) (moff zsz : nat -> Z).
Notation cev := (cev moff zsz). Notation clv := (clv moff zsz).
Notation hst := (hst moff zsz). Notation hlv := (hlv moff zsz). Notation had := (had moff zsz).
Notation hz := (hz moff zsz). Notation zlv := (zlv moff zsz). Notation zad := (zad moff zsz).
Notation rv := (comp_rvalue_go vn mn zn). Notation lv := (comp_lvalue vn mn zn). Notation la := (comp_lvalue_address vn mn zn).
Notation nm := (nm vn). Notation cst := (cst mn zn moff zsz). Notation agree := (agree vn). Notation off := (off vn).
Notation Sem := (Sem vn mn zn moff zsz). Notation SynE := (SynE N). Notation Txt := (Txt N).
Notation Opd := (Opd N vn mn zn moff zsz). Notation Zpd := (Zpd N vn).
Hypothesis NK : names_ok vn mn zn moff zsz.
Notation PhA := (PhA N vn mn zn moff zsz). Notation PhB := (PhB N vn mn zn moff zsz). Notation PhL := (PhL N vn mn zn moff zsz).
Notation PhD := (PhD N vn mn zn moff zsz). Notation PhZ := (PhZ N vn mn zn moff zsz). Notation PhZL := (PhZL N vn mn zn moff zsz).
Notation PhZD := (PhZD N vn mn zn moff zsz). Notation Ph := (Ph N vn mn zn moff zsz).

Ltac ue := cbv beta iota.
Lemma bin_cases op : existsb (Z.eqb op) all_binops = true -> op <> 0 /\ op <> EQ.
Proof.
  intros Hop. apply binop_cases in Hop. cbn in Hop.
  repeat (destruct Hop as [<- | Hop]; [split; discriminate|]). contradiction.
Qed.
Lemma agree_appl A B g s : agree (A ++ B) g s -> agree A g s. Proof. intros H. apply agree_app in H. tauto. Qed.
Lemma agree_appr A B g s : agree (A ++ B) g s -> agree B g s. Proof. intros H. apply agree_app in H. tauto. Qed.
Lemma early_inv h H V : early h = Some (H, V) -> h = Some H /\ V = [].
Proof. destruct h; [|discriminate]. intros E. inversion E; subst. auto. Qed.

(* an operand, then one that is not evaluated *)
Lemma opd_skip (F : den -> den -> den) ca la_ ma cb lb (mb : Prop) Ra Wa Va Hb s sa va v g0 c lev m :
  Opd ca la_ ma Ra Wa Va s sa va g0 -> (forall g1, cst g1 -> agree Hb g1 sa -> Zpd cb lb mb g1) ->
  same Wa s sa -> disj Hb Wa = true -> cst g0 -> agree Hb g0 s ->
  (forall g1 g2 fa fb, Txt ca la_ ma g0 g1 fa -> Txt cb lb mb g1 g2 fb -> Txt c lev m g0 g2 (F fa fb)) ->
  (forall (fa fb : den) g ga, fa g = Some (va, ga) -> F fa fb g = Some (v, ga)) ->
  Opd c lev m (Ra ++ []) (Wa ++ []) (Va ++ []) s sa v g0.
Proof.
  intros (g1 & fa & Ta & Oa & Ia & Ma) Hz Sa D C A HT HF. rewrite !app_nil_r.
  destruct (Hz g1) as (g2 & fb & Tb & Ob); [eapply off_cst; eauto|eapply agree_after; eauto|].
  exists g2, (F fa fb). split; [eapply HT; eauto|].
  split; [rewrite <- (app_nil_r Va); eapply off_app; eauto|]. split; [auto|].
  intros g Cg HR HV. destruct (sem_shift vn mn zn moff zsz NK Ra Wa Va s sa va g1 g2 fa Ob Ma g Cg HR HV) as (g3 & E & X).
  exists g3. split; [eapply HF; eauto|exact X].
Qed.
Lemma opd_pair (F : den -> den -> den) ca la_ ma cb lb (mb : Prop) Ra Wa Va Hb Rb Wb Vb s sa sb va vb v g0 c lev m :
  Opd ca la_ ma Ra Wa Va s sa va g0 ->
  (forall g1, cst g1 -> agree Hb g1 sa -> Opd cb lb mb Rb Wb Vb sa sb vb g1) ->
  same Wa s sa -> same Wb sa sb -> disj Hb Wa = true -> disj Vb (Ra ++ Wa) = true -> cst g0 -> agree Hb g0 s ->
  (forall g1 g2 fa fb, Txt ca la_ ma g0 g1 fa -> Txt cb lb mb g1 g2 fb -> Txt c lev m g0 g2 (F fa fb)) ->
  (forall (fa fb : den) g ga gb, fa g = Some (va, ga) -> fb ga = Some (vb, gb) -> F fa fb g = Some (v, gb)) ->
  Opd c lev m (Ra ++ Rb) (Wa ++ Wb) (Va ++ Vb) s sb v g0.
Proof.
  intros Ca Cb Sa Sb D1 D2 C0 A0 HT HF.
  destruct (two N vn mn zn moff zsz NK ca cb la_ lb ma mb Ra Wa Va Rb Wb Vb Hb s sa sb va vb g0) as (g1 & g2 & fa & fb & Ta & Tb & O & I & M); auto.
  exists g2, (F fa fb). split; [eapply HT; eauto|]. split; [auto|]. split; [auto|].
  intros g C HR HV. destruct (M g C HR HV) as (ga & gb & Ea & Eb & A & Og). exists gb. split; [|auto]. eapply HF; eauto.
Qed.
Lemma cthen_inv ra k v s' R W : cthen ra k = Some (v, s', R, W) ->
  exists va sa Ra Wa R1 W1, ra = Some (va, sa, Ra, Wa) /\ k va sa = Some (v, s', R1, W1) /\ R = Ra ++ R1 /\ W = Wa ++ W1.
Proof.
  unfold cthen. destruct ra as [[[[va sa] Ra] Wa]|]; [|discriminate]. destruct (k va sa) as [[[[v1 s1] R1] W1]|] eqn:K; [|discriminate].
  intros E. inversion E; subst. exists va, sa, Ra, Wa, R1, W1. auto.
Qed.
Lemma ph_bin op a b : Ph a -> Ph b -> Ph (XBin op a b).
Proof.
  intros (Aa & Ba & La & Da & Za & ZLa & ZDa) (Ab & Bb & Lb & Db & Zb & ZLb & ZDb).
  assert (K : okx (XBin op a b) = true -> existsb (Z.eqb op) all_binops = true /\ okx a = true /\ okx b = true /\
    (plev a op <= natl op)%nat /\ (plev b op <= rlim op)%nat /\ (natl op <= 14)%nat /\ natl op <> 0%nat).
  { intros Ok. destruct (bin_levels op a b Ok) as [P1 P2]. rewrite okx_eq in Ok. rewrite !andb_true_iff in Ok.
    destruct Ok as [[[[[Hop Ha] Hb] _] _] _]. pose proof (natl_le op Hop). repeat split; auto; lia. }
  set (ma := plev a op = 0%nat -> minus a = true). set (mb := plev b op = 0%nat -> minus b = true).
  assert (TB : okx (XBin op a b) = true -> forall g0 g1 g2 fa fb,
    Txt (rv a true op) (plev a op) ma g0 g1 fa -> Txt (rv b true op) (plev b op) mb g1 g2 fb ->
    Txt (rv a true op ++ op_to_str op ++ rv b true op) (natl op) ma g0 g2 (dbin N op fa fb)).
  { intros Ok g0 g1 g2 fa fb Ta Tb. destruct (K Ok) as (Hop & Oa & Ob & P1 & P2 & _).
    refine (txt_bin N HN op _ _ _ _ _ _ _ _ _ _ _ Hop P1 P2 Ta Tb). }
  assert (A' : PhA (XBin op a b)).
  { intros o s v s' R W H V g0 Ok E1 E2 C Ag. destruct (K Ok) as (Hop & Oa & Ob & P1 & P2 & Q1 & Q2).
    rewrite comp_rvalue_go_eq. ue. cbn [plev]. apply opd_wrap with (m := ma); auto.
    specialize (TB Ok). rewrite cev_eq in E1. rewrite hst_eq in E2. cbv beta iota in E1, E2.
    destruct (Z.eqb_spec op AMP_AMP) as [Ea|Ea]; [|destruct (Z.eqb_spec op BAR_BAR) as [Eb|Eb]].
    - apply cthen_inv in E1 as (va & sa & Ra & Wa & R1 & W1 & Ea1 & E1 & -> & ->). rewrite Ea1 in E2.
      replace (op =? BAR_BAR) with false in E2 by (subst op; reflexivity). cbn [andb orb] in E2. rewrite orb_false_r in E2.
      destruct (Z.eqb_spec va 0) as [Ev|Ev]; apply hseq_inv in E2 as (Ha & Va & Hb & Vb & Eha & Ehb & -> & -> & D1 & D2).
      + apply early_inv in Ehb as [Ehb ->]. inversion E1; subst v s' R1 W1.
        eapply (opd_skip (dbin N op)) with (va := va) (mb := mb).
        * eapply Aa; [exact Oa|exact Ea1|exact Eha|exact C|eapply agree_appl; exact Ag].
        * intros g1 C1 A1. eapply (Zb op sa); eauto.
        * eapply same_r; exact Ea1.
        * exact D1.
        * exact C.
        * eapply agree_appr; exact Ag.
        * intros. eapply TB; eauto.
        * intros fa fb g ga Ef. subst op. unfold dbin. replace (AMP_AMP =? AMP_AMP) with true by reflexivity.
          unfold dand. rewrite Ef, Ev. reflexivity.
      + unfold cmap in E1. destruct (cev b sa) as [[[[vb sb] Rb] Wb]|] eqn:Eb1; [|discriminate]. inversion E1; subst v sb Rb Wb.
        eapply (opd_pair (dbin N op)) with (va := va) (vb := vb) (sa := sa) (mb := mb).
        * eapply Aa; [exact Oa|exact Ea1|exact Eha|exact C|eapply agree_appl; exact Ag].
        * intros g1 C1 A1. eapply (Ab op sa); eauto.
        * eapply same_r; exact Ea1.
        * eapply same_r; exact Eb1.
        * exact D1.
        * exact D2.
        * exact C.
        * eapply agree_appr; exact Ag.
        * intros. eapply TB; eauto.
        * intros fa fb g ga gb Ef Eg. subst op. unfold dbin. replace (AMP_AMP =? AMP_AMP) with true by reflexivity.
          unfold dand. rewrite Ef, Eg. destruct (Z.eqb_spec va 0); [tauto|reflexivity].
    - apply cthen_inv in E1 as (va & sa & Ra & Wa & R1 & W1 & Ea1 & E1 & -> & ->). rewrite Ea1 in E2.
      cbn [andb orb] in E2.
      destruct (Z.eqb_spec va 0) as [Ev|Ev]; cbn [negb] in E2; apply hseq_inv in E2 as (Ha & Va & Hb & Vb & Eha & Ehb & -> & -> & D1 & D2).
      + unfold cmap in E1. destruct (cev b sa) as [[[[vb sb] Rb] Wb]|] eqn:Eb1; [|discriminate]. inversion E1; subst v sb Rb Wb.
        eapply (opd_pair (dbin N op)) with (va := va) (vb := vb) (sa := sa) (mb := mb).
        * eapply Aa; [exact Oa|exact Ea1|exact Eha|exact C|eapply agree_appl; exact Ag].
        * intros g1 C1 A1. eapply (Ab op sa); eauto.
        * eapply same_r; exact Ea1.
        * eapply same_r; exact Eb1.
        * exact D1.
        * exact D2.
        * exact C.
        * eapply agree_appr; exact Ag.
        * intros. eapply TB; eauto.
        * intros fa fb g ga gb Ef Eg. subst op. unfold dbin. replace (BAR_BAR =? AMP_AMP) with false by reflexivity.
          replace (BAR_BAR =? BAR_BAR) with true by reflexivity.
          unfold dor. rewrite Ef, Eg. destruct (Z.eqb_spec va 0); [reflexivity|tauto].
      + apply early_inv in Ehb as [Ehb ->]. inversion E1; subst v s' R1 W1.
        eapply (opd_skip (dbin N op)) with (va := va) (mb := mb).
        * eapply Aa; [exact Oa|exact Ea1|exact Eha|exact C|eapply agree_appl; exact Ag].
        * intros g1 C1 A1. eapply (Zb op sa); eauto.
        * eapply same_r; exact Ea1.
        * exact D1.
        * exact C.
        * eapply agree_appr; exact Ag.
        * intros. eapply TB; eauto.
        * intros fa fb g ga Ef. subst op. unfold dbin. replace (BAR_BAR =? AMP_AMP) with false by reflexivity.
          replace (BAR_BAR =? BAR_BAR) with true by reflexivity.
          unfold dor. rewrite Ef. destruct (Z.eqb_spec va 0); [tauto|reflexivity].
    - unfold cpair in E1. destruct (cev a s) as [[[[va sa] Ra] Wa]|] eqn:Ea1; [|discriminate].
      cbn [andb orb] in E2. apply hseq_inv in E2 as (Ha & Va & Hb & Vb & Eha & Ehb & -> & -> & D1 & D2).
      destruct (cev b sa) as [[[[vb sb] Rb] Wb]|] eqn:Eb1; [|discriminate].
      destruct (race _ _ _ _); [discriminate|]. destruct (carith op va vb) as [v'|] eqn:Ev; [|discriminate].
      inversion E1; subst v' sb R W.
      eapply (opd_pair (dbin N op)) with (va := va) (vb := vb) (sa := sa) (mb := mb).
      + eapply Aa; [exact Oa|exact Ea1|exact Eha|exact C|eapply agree_appl; exact Ag].
      + intros g1 C1 A1. eapply (Ab op sa); eauto.
      + eapply same_r; exact Ea1.
      + eapply same_r; exact Eb1.
      + exact D1.
      + exact D2.
      + exact C.
      + eapply agree_appr; exact Ag.
      + intros. eapply TB; eauto.
      + intros fa fb g ga gb Ef Eg. unfold dbin. destruct (Z.eqb_spec op AMP_AMP); [tauto|]. destruct (Z.eqb_spec op BAR_BAR); [tauto|].
        unfold dop. rewrite Ef, Eg, (carith_arith N HN _ _ _ _ Ev). reflexivity. }
  apply Ph_plain; try reflexivity; auto.
  - apply B_of_A; [exact NK|intros; apply plev_le; auto|reflexivity|exact A'].
  - intros o s H g0 Ok E C Ag. destruct (K Ok) as (Hop & Oa & Ob & P1 & P2 & Q1 & Q2). rewrite hz_eq in E. cbv beta iota in E.
    apply oapp_inv in E as (Ha & Hb & E1 & E2 & ->). apply agree_app in Ag as [A1 A2].
    destruct (z_two N vn mn zn moff zsz NK (rv a true op) (plev a op) ma (rv b true op) (plev b op) mb Hb s g0)
      as (g1 & g2 & fa & fb & T1 & T2 & O & _); auto.
    + eapply Za; eauto.
    + intros g1 C1 A1'. eapply Zb; eauto.
    + rewrite comp_rvalue_go_eq. ue. cbn [plev]. apply zpd_wrap with (m := ma); auto.
      exists g2, (dbin N op fa fb). split; [eapply TB; eauto|auto].
Qed.
Lemma notassoc3 e o : o <> 0 -> o <> EQ -> is_associative_operator o = false -> okx e = true -> (plev e o <= 3)%nat.
Proof. apply plev_not_assoc. Qed.
Lemma lev_comma e : okx e = true -> (plev e COMMA <= 3)%nat.
Proof. apply notassoc3; [discriminate|discriminate|reflexivity]. Qed.
Lemma lev_quest e : okx e = true -> (plev e QUEST <= 3)%nat.
Proof. apply notassoc3; [discriminate|discriminate|reflexivity]. Qed.
Lemma ph_comma a b : Ph a -> Ph b -> Ph (XComma a b).
Proof.
  intros (Aa & Ba & La & Da & Za & ZLa & ZDa) (Ab & Bb & Lb & Db & Zb & ZLb & ZDb).
  assert (K : okx (XComma a b) = true -> okx a = true /\ okx b = true).
  { intros Ok. rewrite okx_eq in Ok. apply andb_true_iff in Ok. auto. }
  set (ma := plev a COMMA = 0%nat -> minus a = true). set (mb := plev b COMMA = 0%nat -> minus b = true).
  assert (TB : okx (XComma a b) = true -> forall g0 g1 g2 fa fb,
    Txt (rv a true COMMA) (plev a COMMA) ma g0 g1 fa -> Txt (rv b true COMMA) (plev b COMMA) mb g1 g2 fb ->
    Txt (rv a true COMMA ++ op_to_str COMMA ++ rv b true COMMA) 14 ma g0 g2 (dcomma fa fb)).
  { intros Ok g0 g1 g2 fa fb Ta Tb. destruct (K Ok) as (Oa & Ob). pose proof (lev_comma a Oa). pose proof (lev_comma b Ob).
    eapply txt_comma; [| |exact Ta|exact Tb]; lia. }
  assert (A' : PhA (XComma a b)).
  { intros o s v s' R W H V g0 Ok E1 E2 C Ag. destruct (K Ok) as (Oa & Ob).
    rewrite comp_rvalue_go_eq. ue. cbn [plev]. apply opd_wrap with (m := ma); [lia|lia|].
    specialize (TB Ok). rewrite cev_eq in E1. rewrite hst_eq in E2. cbv beta iota in E1, E2.
    apply cthen_inv in E1 as (va & sa & Ra & Wa & R1 & W1 & Ea1 & E1 & -> & ->). rewrite Ea1 in E2.
    apply hseq_inv in E2 as (Ha & Va & Hb & Vb & Eha & Ehb & -> & -> & D1 & D2).
    eapply (opd_pair dcomma) with (va := va) (vb := v) (sa := sa) (mb := mb).
    + eapply Aa; [exact Oa|exact Ea1|exact Eha|exact C|eapply agree_appl; exact Ag].
    + intros g1 C1 A1. eapply (Ab COMMA sa); eauto.
    + eapply same_r; exact Ea1.
    + eapply same_r; exact E1.
    + exact D1.
    + exact D2.
    + exact C.
    + eapply agree_appr; exact Ag.
    + intros. eapply TB; eauto.
    + intros fa fb g ga gb Ef Eg. unfold dcomma. rewrite Ef. exact Eg. }
  apply Ph_plain; try reflexivity; auto.
  - apply B_of_A; [exact NK|intros; apply plev_le; auto|reflexivity|exact A'].
  - intros o s H g0 Ok E C Ag. destruct (K Ok) as (Oa & Ob). rewrite hz_eq in E. cbv beta iota in E.
    apply oapp_inv in E as (Ha & Hb & E1 & E2 & ->). apply agree_app in Ag as [A1 A2].
    destruct (z_two N vn mn zn moff zsz NK (rv a true COMMA) (plev a COMMA) ma (rv b true COMMA) (plev b COMMA) mb Hb s g0)
      as (g1 & g2 & fa & fb & T1 & T2 & O & _); auto.
    + eapply Za; eauto.
    + intros g1 C1 A1'. eapply Zb; eauto.
    + rewrite comp_rvalue_go_eq. ue. cbn [plev]. apply zpd_wrap with (m := ma); [lia|lia|].
      exists g2, (dcomma fa fb). split; [eapply TB; eauto|auto].
Qed.
End Main.
