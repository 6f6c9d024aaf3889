(** * Expressions compiled to shell arithmetic: assignments, conditionals; the induction *)
From Coq Require Import ZArith List Lia Bool.
From Verif Require Import Base Numerals Output Ast Parse ShArith ShExpr ShCSem ShEqs ShFacts ShFacts2 ShSyn ShSem ShMain ShMain2 ShMain3 ShMain4 ShMain5.
Import ListNotations.
Open Scope Z_scope.

Section Main.
Variable N : Z.
Hypothesis HN : 32 <= N.
Variables (vn mn zn : nat -> name) (moff zsz : nat -> Z).
Notation cev := (cev moff zsz). Notation clv := (clv moff zsz).
Notation hst := (hst moff zsz). Notation hlv := (hlv moff zsz). Notation had := (had moff zsz).
Notation hz := (hz moff zsz). Notation zlv := (zlv moff zsz). Notation zad := (zad moff zsz).
Notation rv := (comp_rvalue_go vn mn zn). Notation lv := (comp_lvalue vn mn zn). Notation la := (comp_lvalue_address vn mn zn).
Notation nm := (nm vn). Notation cst := (cst mn zn moff zsz). Notation agree := (agree vn). Notation off := (off vn).
Notation Sem := (Sem vn mn zn moff zsz). Notation SynE := (SynE N). Notation Txt := (Txt N).
Notation Opd := (Opd N vn mn zn moff zsz). Notation Zpd := (Zpd N vn).
Hypothesis NK : names_ok vn mn zn moff zsz.
Notation PhA := (PhA N vn mn zn moff zsz). Notation PhB := (PhB N vn mn zn moff zsz). Notation PhL := (PhL N vn mn zn moff zsz).
Notation PhD := (PhD N vn mn zn moff zsz). Notation PhZ := (PhZ N vn mn zn moff zsz). Notation PhZL := (PhZL N vn mn zn moff zsz).
Notation PhZD := (PhZD N vn mn zn moff zsz). Notation Ph := (Ph N vn mn zn moff zsz).

Ltac ue := cbv beta iota.
Lemma asg_in op : existsb (Z.eqb op) assign_ops = true -> In op assign_ops.
Proof. intros H. apply existsb_exists in H as (x & I & E). apply Z.eqb_eq in E. subst x. exact I. Qed.
Lemma ph_asg op a b : Ph a -> Ph b -> Ph (XAsg op a b).
Proof.
  intros (Aa & Ba & La & Da & Za & ZLa & ZDa) (Ab & Bb & Lb & Db & Zb & ZLb & ZDb).
  assert (K : okx (XAsg op a b) = true -> In op assign_ops /\ okl a = true /\ okx b = true /\ (plev b op <= 13)%nat).
  { intros Ok. rewrite okx_eq in Ok. rewrite !andb_true_iff in Ok. destruct Ok as [[[Hop Oa] Ob] Hc].
    pose proof (asg_in op Hop) as I. repeat split; auto.
    destruct (Z.eqb_spec op EQ) as [->|Ne].
    - apply comma_lev; auto. apply negb_true_iff. exact Hc.
    - pose proof (asg_not_assoc op Hop) as As. assert (N0 : op <> 0).
      { cbn in I. repeat (destruct I as [<- | I]; [discriminate|]). contradiction. }
      pose proof (plev_not_assoc b op N0 Ne As Ob). lia. }
  assert (A' : PhA (XAsg op a b)).
  { intros o s v s' R W H V g0 Ok E1 E2 C Ag. destruct (K Ok) as (Hop & Oa & Ob & P).
    rewrite comp_rvalue_go_eq. ue. cbn [plev]. apply opd_wrap with (m := False); [lia|lia|].
    rewrite cev_eq in E1. rewrite hst_eq in E2. cbv beta iota in E1, E2.
    destruct (clv a s) as [[[[l s1] Ra] Wa]|] eqn:El; [|discriminate].
    destruct (cev b s1) as [[[[x s2] Rb] Wb]|] eqn:Eb; [|discriminate].
    destruct (race Ra Wa Rb Wb || mem l (Wa ++ Wb)) eqn:Rc; [discriminate|]. apply orb_false_iff in Rc as [_ Ml].
    apply mem_false in Ml. apply hseq_inv in E2 as (Ha & Va & Hb & Vb & Eha & Ehb & -> & -> & D1 & D2).
    apply agree_app in Ag as [AgA AgB].
    destruct (La s l s1 Ra Wa Ha Va g0 Oa El Eha C AgA) as (g1 & X & I & -> & A1 & O1).
    pose proof (same_l moff zsz a s l s1 Ra Wa El) as Sa. pose proof (same_r moff zsz b s1 x s2 Rb Wb Eb) as Sb.
    assert (C1 : cst g1) by (eapply off_cst; eauto).
    destruct (Ab op s1 x s2 Rb Wb Hb Vb g1 Ob Eb Ehb C1) as (g2 & fb & Tb & O2 & I2 & M2).
    { eapply (agree_after vn mn zn moff zsz NK Wa Wa Hb g0 g1 s s1); auto. apply incl_refl. }
    assert (SA : Sem Ra Wa Wa s s1 0 g1 (fun g => Some (0, g))).
    { intros g Cg HR HV. exists g. split; [reflexivity|]. split; [|apply off_refl]. intros m Hm. rewrite HV by auto. apply A1; auto. }
    assert (IW : incl (Wa ++ Vb) (Wa ++ Wb)).
    { apply incl_app; [apply incl_appl, incl_refl|apply incl_appr; auto]. }
    assert (Lab : same (Wa ++ Wb) s s2) by (eapply same_app; eauto).
    assert (PS : forall R1 g, incl (Ra ++ Rb) R1 -> cst g -> (forall m, In m R1 -> ~ In m (Wa ++ Vb) -> g (nm m) = s m) ->
        (forall m, In m (Wa ++ Vb) -> g (nm m) = g2 (nm m)) ->
        exists gb, fb g = Some (x, gb) /\ agree (Wa ++ Wb) gb s2 /\ off (Wa ++ Wb) g gb).
    { intros R1 g HI Cg HR HV.
      destruct (pair_sem vn mn zn moff zsz NK s s1 s2 Ra Wa Wa Rb Wb Vb g0 g1 g2 0 x (fun g => Some (0, g)) fb) with (g2 := g)
        as (ga & gb & Ea & _ & _ & Eb' & A3 & O3); auto using incl_refl.
      - intros m X1 X2. eapply disj_spec; [exact D2|exact X1|exact X2].
      - inversion Ea; subst ga. exists gb. auto. }
    assert (TX : Txt (lv a ++ op_to_str op ++ rv b true op) 13 False g0 g2 (dasg N op (nm l) fb)).
    { eapply txt_asg; [exact Hop|exact I|exact P|exact X|exact Tb]. }
    exists g2, (dasg N op (nm l) fb). split; [exact TX|]. split; [eapply off_app; eauto|].
    destruct (Z.eqb_spec op EQ) as [->|Ne].
    - inversion E1; subst v s' R W. split; [apply incl_tl; exact IW|].
      intros g Cg HR HV. destruct (PS (Ra ++ Rb) g (incl_refl _) Cg HR HV) as (gb & Ef & A3 & O3).
      exists (setv (nm l) x gb). split; [unfold dasg; rewrite Ef; reflexivity|].
      split; [eapply upd_agree; [exact NK|exact A3]|apply upd_off; exact O3].
    - destruct (asg_op op) as [o'|] eqn:Eo; [|discriminate]. destruct (carith o' (s2 l) x) as [w|] eqn:Ew; [|discriminate].
      inversion E1; subst v s' R W. split; [apply incl_tl; exact IW|].
      intros g Cg HR HV. destruct (PS (l :: Ra ++ Rb) g (incl_tl _ (incl_refl _)) Cg HR HV) as (gb & Ef & A3 & O3).
      assert (Gl : gb (nm l) = s2 l).
      { rewrite (off_nm _ _ _ _ _ NK _ _ _ _ O3 Ml). rewrite HR; [|left; reflexivity|intros Y; apply Ml, IW, Y].
        symmetry. apply Lab. exact Ml. }
      exists (setv (nm l) w gb). split.
      + unfold dasg. rewrite Ef, Eo. destruct (Z.eqb_spec op EQ); [tauto|]. rewrite Gl, (carith_arith N HN _ _ _ _ Ew). reflexivity.
      + split; [eapply upd_agree; [exact NK|exact A3]|apply upd_off; exact O3]. }
  apply Ph_plain; try reflexivity; auto.
  - apply B_of_A; [exact NK|intros; apply plev_le; auto|reflexivity|exact A'].
  - intros o s H g0 Ok E C Ag. destruct (K Ok) as (Hop & Oa & Ob & P). rewrite hz_eq in E. cbv beta iota in E.
    apply oapp_inv in E as (Ha & Hb & E1 & E2 & ->). apply agree_app in Ag as [A1 A2].
    destruct (ZLa s Ha g0 Oa E1 C A1) as (g1 & n & X & I & O).
    destruct (Zb op s Hb g1 Ob E2) as (g2 & fb & Tb & O2); [eapply off_cst; eauto|eapply agree_off; eauto|].
    rewrite comp_rvalue_go_eq. ue. cbn [plev]. apply zpd_wrap with (m := False); [lia|lia|].
    exists g2, (dasg N op n fb). split; [eapply txt_asg; [exact Hop|exact I|exact P|exact X|exact Tb]|].
    eapply off_nil; eauto.
Qed.
Lemma disj_appl A B C : disj A (B ++ C) = true -> disj A B = true /\ disj A C = true.
Proof.
  unfold disj. rewrite !forallb_forall. intros H. split; intros x Hx; specialize (H x Hx); unfold mem in *;
    destruct (in_dec loc_eq_dec x (B ++ C)) as [Y|Y]; try discriminate.
  - destruct (in_dec loc_eq_dec x B); [|reflexivity]. exfalso. apply Y, in_or_app. auto.
  - destruct (in_dec loc_eq_dec x C); [|reflexivity]. exfalso. apply Y, in_or_app. auto.
Qed.
Lemma ph_cond c a b : Ph c -> Ph a -> Ph b -> Ph (XCond c a b).
Proof.
  intros (Ac & Bc & Lc & Dc & Zc & ZLc & ZDc) (Aa & Ba & La & Da & Za & ZLa & ZDa) (Ab & Bb & Lb & Db & Zb & ZLb & ZDb).
  assert (K : okx (XCond c a b) = true -> okx c = true /\ okx a = true /\ okx b = true).
  { intros Ok. rewrite okx_eq in Ok. rewrite !andb_true_iff in Ok. tauto. }
  set (mc := plev c QUEST = 0%nat -> minus c = true).
  set (ma := plev a QUEST = 0%nat -> minus a = true). set (mb := plev b QUEST = 0%nat -> minus b = true).
  assert (TB : okx (XCond c a b) = true -> forall g0 g1 g2 g3 fc fa fb,
    Txt (rv c true QUEST) (plev c QUEST) mc g0 g1 fc ->
    Txt (rv a true QUEST) (plev a QUEST) ma g1 g2 fa -> Txt (rv b true QUEST) (plev b QUEST) mb g2 g3 fb ->
    Txt (rv c true QUEST ++ op_to_str QUEST ++ rv a true QUEST ++ chs [58; 32] ++ rv b true QUEST) 12 mc g0 g3 (dcond fc fa fb)).
  { intros Ok g0 g1 g2 g3 fc fa fb Tc Ta Tb. destruct (K Ok) as (Oc & Oa & Ob).
    pose proof (lev_quest c Oc). pose proof (lev_quest a Oa). pose proof (lev_quest b Ob).
    eapply txt_cond; [| | |exact Tc|exact Ta|exact Tb]; lia. }
  assert (A' : PhA (XCond c a b)).
  { intros o s v s' R W H V g0 Ok E1 E2 C Ag. destruct (K Ok) as (Oc & Oa & Ob).
    rewrite comp_rvalue_go_eq. ue. cbn [plev]. apply opd_wrap with (m := mc); [lia|lia|].
    specialize (TB Ok). rewrite cev_eq in E1. rewrite hst_eq in E2. cbv beta iota in E1, E2.
    apply cthen_inv in E1 as (vc & sc & Rc & Wc & R1 & W1 & Ec & E1 & -> & ->). rewrite Ec in E2.
    pose proof (same_r moff zsz c s vc sc Rc Wc Ec) as Sc.
    destruct (Z.eqb_spec vc 0) as [Ev|Ev].
    - apply hseq_inv in E2 as (Hca & Vca & Hb & Vb & Ehca & Ehb & -> & -> & D1 & D2).
      apply hseq_inv in Ehca as (Hc & Vc & Ha & Va & Ehc & Eha & -> & -> & D3 & D4).
      apply early_inv in Eha as [Eha ->]. apply agree_app in Ag as [AgCA AgB]. apply agree_app in AgCA as [AgC AgA].
      destruct (Ac QUEST s vc sc Rc Wc Hc Vc g0 Oc Ec Ehc C AgC) as (g1 & fc & Tc & O1 & I1 & M1).
      assert (C1 : cst g1) by (eapply off_cst; eauto).
      destruct (Za QUEST sc Ha g1 Oa Eha C1) as (g2 & fa & Ta & O2); [eapply agree_after; eauto|].
      assert (C2 : cst g2) by (eapply off_cst; eauto).
      destruct (Ab QUEST sc v s' R1 W1 Hb Vb g2 Ob E1 Ehb C2) as (g3 & fb & Tb & O3 & I3 & M3).
      { eapply agree_off; [exact NK|exact O2|]. eapply agree_after; eauto. }
      pose proof (same_r moff zsz b sc v s' R1 W1 E1) as Sb.
      assert (O12 : off (Vc ++ []) g0 g2) by (eapply off_app; eauto).
      exists g3, (dcond fc fa fb). split; [eapply TB; eauto|].
      split; [eapply off_app; eauto|].
      rewrite app_nil_r in *. split; [apply incl_app; [apply incl_appl; auto|apply incl_appr; auto]|].
      intros g Cg HR HV.
      destruct (pair_sem vn mn zn moff zsz NK s sc s' Rc Wc Vc R1 W1 Vb g0 g2 g3 vc v fc fb) with (g2 := g)
        as (ga & gb & Ea & _ & _ & Eb & A3 & Og); auto.
      + intros m X1 X2. eapply disj_spec; [exact D2|exact X1|exact X2].
      + eapply sem_shift; eauto.
      + exists gb. split; [|auto]. unfold dcond. rewrite Ea, Ev. exact Eb.
    - destruct (cev a sc) as [[[[va sa] Ra] Wa]|] eqn:Ea; [|discriminate]. inversion E1; subst va sa R1 W1.
      apply hseq_inv in E2 as (Hca & Vca & Hb & Vb & Ehca & Ehb & -> & -> & D1 & D2).
      apply hseq_inv in Ehca as (Hc & Vc & Ha & Va & Ehc & Eha & -> & -> & D3 & D4).
      apply early_inv in Ehb as [Ehb ->]. apply agree_app in Ag as [AgCA AgB]. apply agree_app in AgCA as [AgC AgA].
      apply disj_appl in D1 as [D1 D1'].
      destruct (Ac QUEST s vc sc Rc Wc Hc Vc g0 Oc Ec Ehc C AgC) as (g1 & fc & Tc & O1 & I1 & M1).
      assert (C1 : cst g1) by (eapply off_cst; eauto).
      destruct (Aa QUEST sc v s' Ra Wa Ha Va g1 Oa Ea Eha C1) as (g2 & fa & Ta & O2 & I2 & M2); [eapply agree_after; eauto|].
      assert (C2 : cst g2) by (eapply off_cst; eauto).
      pose proof (same_r moff zsz a sc v s' Ra Wa Ea) as Sa.
      destruct (Zb QUEST s' Hb g2 Ob Ehb C2) as (g3 & fb & Tb & O3).
      { eapply (agree_after vn mn zn moff zsz NK Wa Va Hb g1 g2 sc s'); auto. eapply agree_after; eauto. }
      exists g3, (dcond fc fa fb). split; [eapply TB; eauto|]. rewrite app_nil_r.
      assert (O12 : off (Vc ++ Va) g0 g2) by (eapply off_app; eauto).
      split; [rewrite <- (app_nil_r (Vc ++ Va)); eapply off_app; eauto|].
      split; [apply incl_app; [apply incl_appl; auto|apply incl_appr; auto]|].
      intros g Cg HR HV.
      destruct (pair_sem vn mn zn moff zsz NK s sc s' Rc Wc Vc Ra Wa Va g0 g1 g2 vc v fc fa) with (g2 := g)
        as (ga & gb & Ea1 & _ & _ & Eb & A3 & Og); auto.
      + intros m X1 X2. eapply disj_spec; [exact D4|exact X1|exact X2].
      + intros m Hm. rewrite HV by auto. apply (off_nm _ _ _ _ _ NK _ _ _ _ O3). intros [].
      + exists gb. split; [|auto]. unfold dcond. rewrite Ea1. destruct (Z.eqb_spec vc 0); [tauto|exact Eb]. }
  apply Ph_plain; try reflexivity; auto.
  - apply B_of_A; [exact NK|intros; apply plev_le; auto|reflexivity|exact A'].
  - intros o s H g0 Ok E C Ag. destruct (K Ok) as (Oc & Oa & Ob). rewrite hz_eq in E. cbv beta iota in E.
    apply oapp_inv in E as (Hca & Hb & E1 & E2 & ->). apply oapp_inv in E1 as (Hc & Ha & E1 & E3 & ->).
    apply agree_app in Ag as [A1 A2]. apply agree_app in A1 as [A1 A3].
    destruct (Zc QUEST s Hc g0 Oc E1 C A1) as (g1 & fc & Tc & O1).
    assert (C1 : cst g1) by (eapply off_cst; eauto).
    destruct (Za QUEST s Ha g1 Oa E3 C1) as (g2 & fa & Ta & O2); [eapply agree_off; eauto|].
    assert (C2 : cst g2) by (eapply off_cst; eauto). assert (O12 : off [] g0 g2) by (eapply off_nil; eauto).
    destruct (Zb QUEST s Hb g2 Ob E2 C2) as (g3 & fb & Tb & O3); [eapply agree_off; eauto|].
    rewrite comp_rvalue_go_eq. ue. cbn [plev]. apply zpd_wrap with (m := mc); [lia|lia|].
    exists g3, (dcond fc fa fb). split; [eapply TB; eauto|]. eapply off_nil; eauto.
Qed.
Theorem Ph_all e : Ph e.
Proof.
  induction e; eauto using ph_int, ph_hex, ph_oct, ph_chr, ph_var, ph_deref, ph_idx, ph_mem, ph_par, ph_plus, ph_cast, ph_un,
    ph_pre, ph_post, ph_size1, ph_sizeS, ph_addr, ph_bin, ph_comma, ph_asg, ph_cond.
Qed.
End Main.
