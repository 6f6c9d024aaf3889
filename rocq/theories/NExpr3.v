(** * Expressions, continued: binary operators, short circuit, conversions *)
From Coq Require Import ZArith List Lia Bool.
From Verif Require Import Base Asm AsmProof X86 X86Proof X86Sem NMach NPtr CLang NGen NSupp NBin NRun NBop NEqs NStat NJudge NExpr NExpr2.
Import ListNotations.
Open Scope Z_scope.

Section X.
Variables (W slim STOP cb GB : Z) (bytes : list Z) (lab : Z -> option Z).
Variables (funs : cdecls) (gvars : list (Z * (Z * ty))) (glo : list gbnd) (F : mst -> Prop) (mp : list Z).
Hypothesis HW : W = 4 \/ W = 8.
Hypothesis Hslim : 0 < slim.
Hypothesis Hstop : STOP < MOD W.
Hypothesis Hdis : STOP <= cb \/ cb + zlen bytes <= slim.
Hypothesis Hcb : 0 <= cb /\ cb + zlen bytes <= MOD W.
Hypothesis HF : decl_ok funs glo.
Set Default Proof Using "HW Hslim Hstop Hdis Hcb HF".
Notation placed := (placed W cb bytes lab).
Notation hsize := (hsize W).
Notation wp := (wp W slim).
Notation MOD := (MOD W).
Notation St := (St W slim STOP cb GB bytes).
Notation EX := (EX W slim STOP cb GB bytes lab funs gvars glo F mp).
Notation LX := (LX W slim STOP cb GB bytes lab funs gvars glo F mp).
Notation AX := (AX W slim STOP cb GB bytes lab funs gvars glo F mp).
Notation CX := (CX W slim STOP cb GB bytes lab funs gvars glo F mp).
Notation VR := (VR W GB glo).
Notation vok := (vok W funs).
Notation kof := (kof W).
Notation mok := (mok W).
Ltac kty := split; [intros tt0 Ht0; cbn [ctype] in Ht0|discriminate].
Lemma tw L mem base ws m0 w r m : St L mem base (w :: ws) m0 r m -> 0 <= w < MOD.
Proof. intros. apx topw; eauto. Qed.
Lemma ty3 V loc fp e c v : VR V loc fp -> ty2 W funs (tys V) e = Some (c, v) ->
  ctype W funs (tys V) e = Some c /\ value_type (lookupZ (tys V)) (ftab funs) (mtab funs) e = Some v /\ wfty W c = true /\ wfty W v = true /\ vt glo loc e = Some v.
Proof. intros. apx ty2i; eauto. Qed.
Lemma vk E e v t : vok E e v -> ctype W funs (tys (vars E)) e = Some t -> inr_ W t v.
Proof. intros [H _]. apply H. Qed.
Lemma mk m : mok m -> 0 <= kof m <= W.
Proof. destruct m; cbn; [auto|]. intros _. destruct HW; lia. Qed.
Ltac top H := let Rg := fresh "Rg" in assert (Rg := tw _ _ _ _ _ _ _ _ H).

Lemma rvf E loc fp m e fs lb u c fs' lb' : VR (vars E) loc fp -> supp W funs (tys (vars E)) m e = true ->
  codegen_rvalue W glo loc e (fs, lb) = Some (u, c, (fs', lb')) -> fs' = fs + 1.
Proof. intros HV. eapply rv_fs; eauto. apx VR_ty; eauto. Qed.
Lemma lvf E loc fp e fs lb u c fs' lb' : VR (vars E) loc fp -> slv W funs (tys (vars E)) e = true ->
  codegen_lvalue W glo loc e (fs, lb) = Some (u, c, (fs', lb')) -> fs' = fs + 1.
Proof. intros HV. eapply lv_fs; eauto. apx VR_ty; eauto. Qed.
Ltac fsx HV := repeat match goal with
  | S : supp _ _ _ _ ?e = true, G : codegen_rvalue _ _ _ ?e (?a, _) = Some (_, _, (?b, _)) |- _ =>
      lazymatch goal with _ : b = a + 1 |- _ => fail | _ => assert (b = a + 1) by (eapply rvf; [exact HV|exact S|exact G]) end
  | S : slv _ _ _ ?e = true, G : codegen_lvalue _ _ _ ?e (?a, _) = Some (_, _, (?b, _)) |- _ =>
      lazymatch goal with _ : b = a + 1 |- _ => fail | _ => assert (b = a + 1) by (eapply lvf; [exact HV|exact S|exact G]) end
  end.
Ltac vtx V2 := match type of V2 with _ ?e = Some _ => repeat match goal with H : vt _ _ e = Some ?a |- _ =>
   lazymatch H with V2 => fail | _ => rewrite V2 in H; apply Some_inj in H; subst a end end end.

Lemma bm_ok o k t1 t2 v1 v2 m1 m2 : 0 <= k <= W -> bmodes W o k t1 t2 v1 v2 = Some (m1, m2) -> mok m1 /\ mok m2.
Proof.
  intros Hk H. assert (A : mok (Mod k) /\ mok (Mod W)) by (cbn; lia). destruct A as [A B].
  unfold bmodes in H. repeat match type of H with
   | (if ?b then _ else _) = _ => destruct b; try discriminate H
   | match ?x with _ => _ end = _ => destruct x; try discriminate H
   end; apply Some_inj in H; injection H as <- <-; split; assumption.
Qed.
Lemma bm_bt o k t1 t2 v1 v2 m12 : wfty W t1 = true -> wfty W t2 = true -> bmodes W o k t1 t2 v1 v2 = Some m12 ->
  exists rt, btype W o t1 t2 = Some rt /\ vty W rt.
Proof.
  intros W1 W2 H. unfold bmodes in H. unfold btype.
  assert (D : forall t u, wfty W t = true -> decay t = TPtr u -> vty W (TPtr u)).
  { intros t u Hw Hd. split; [|discriminate]. destruct t; cbn in Hd; try discriminate; injection Hd as ->; [exact Hw|].
    cbn [wfty] in *. bt. apply andb_true_intro. split; auto. destruct u; try discriminate; auto. }
  destruct (decay t1) as [n1 s1|p1| | |] eqn:D1; try discriminate; destruct (decay t2) as [n2 s2|p2| | |] eqn:D2; try discriminate.
  - assert (t1 = TInt n1 s1) as -> by (destruct t1; cbn in D1; congruence).
    assert (t2 = TInt n2 s2) as -> by (destruct t2; cbn in D2; congruence).
    destruct (uac _ _) as [rt|] eqn:U; [|discriminate]. destruct (uac_wf W HW _ _ _ W1 W2 U) as (n & s & -> & Hn & _).
    destruct (is_cmp o); [exists tint; split; auto; apx vty_tint|].
    assert (Hv : vty W (TInt n s)) by (apx vty_int; apply wf_isz; auto).
    assert (Hp : vty W (promote (TInt n1 s1))) by (apx vty_prom; auto).
    destruct o; eauto.
  - destruct o; try (destruct (negb _); discriminate); eauto; exists tint; split; auto; apx vty_tint.
  - destruct o; try (destruct (negb _); discriminate); eauto; exists tint; split; auto; apx vty_tint.
  - destruct o; try (destruct (negb _); discriminate); eauto; try (exists tint; split; auto; apx vty_tint).
    eexists; split; [reflexivity|]. apx vty_int. cbn. destruct HW; subst W; reflexivity.
Qed.
Lemma bval_cmp o t1 t2 x y v : is_cmp o = true -> bval W o t1 t2 x y = Some v -> v = 0 \/ v = 1.
Proof.
  intros Hc H. assert (B : forall b, b2i b = 0 \/ b2i b = 1) by (intros []; auto).
  unfold bval in H. destruct (decay t1), (decay t2); try discriminate; destruct o; try discriminate; cbn [is_cmp] in H;
    try (destruct (uac t1 t2); [|discriminate]); apply Some_inj in H; subst v; apply B.
Qed.
Lemma x_bin k o a b : EX k a -> EX k b -> EX (S k) (EBin o a b).
Proof.
  intros IHa IHb. case0.
  destruct (ty2 W funs (tys (vars E)) a) as [[t1 v1]|] eqn:Ea; [|discriminate]. destruct (ty2 W funs (tys (vars E)) b) as [[t2 v2]|] eqn:Eb; [|discriminate].
  destruct (ty3 _ _ _ _ _ _ HV Ea) as (C1 & _ & W1 & U1 & V1). destruct (ty3 _ _ _ _ _ _ HV Eb) as (C2 & _ & W2 & U2 & V2).
  destruct (bmodes W o (kof m) t1 t2 v1 v2) as [[ma mb0]|] eqn:Em; [|discriminate]. bt. rewrite C1, C2 in HC.
  destruct (bm_ok _ _ _ _ _ _ _ _ (mk _ Hm) Em) as [Ma Mb]. destruct (bm_bt _ _ _ _ _ _ _ W1 W2 Em) as (rt & Et & Vt).
  unfold lbinop in HG. mi. vtx V1. vtx V2. fsx HV. norm Hp.
  apply (placed_app _ _ _ _ HW) in Hp as [Hp1 Hp]. apply (placed_app _ _ _ _ HW) in Hp as [Hp2 Hp]. rewrite app_nil_r in Hp.
  eapply IHa; [exact HC|eassumption|exact Ma|eassumption|exact HV|exact Hp1|exact H|lia|].
  clear H. intros vx s1 wx r1 m1 f1 HQ1 Hv1 Rx H. top H. cbv beta in HQ1.
  eapply IHb; [exact HQ1|eassumption|exact Mb|eassumption|exact HV|exact Hp2|exact H|rewrite zlen_cons; lia|].
  clear H. intros vy s2 wy r2 m2 f2 HQ2 Hv2 Ry H. top H. cbv beta in HQ2.
  destruct (bval W o t1 t2 vx vy) as [v|] eqn:Ev; [|contradiction]. cbn [oq] in HQ2.
  destruct (bval_rep W HW o (kof m) t1 t2 v1 v2 ma mb0 rt v vx vy wx wy) as (wz & Ez & Rz & Pz & Iz); eauto using mk, vk.
  ap binop_ok; [eassumption|exact Hp|exact H|exact Ez|]. clear H. intros r3 m3 f3 H. fin K; eauto.
  - split; [|intros Hb; eapply bval_cmp; eauto]. cbn [ctype]. rewrite C1, C2, Et. intros t Ht. apply Some_inj in Ht as <-. exact Iz.
  - apx rep_mode; eauto.
Qed.
(** Indexing: the element type and which operand is the pointer. *)
Lemma idx_ty t1 t2 v1 v2 k m12 rt d : wfty W t1 = true -> wfty W t2 = true -> wfty W v1 = true -> wfty W v2 = true ->
  bmodes W Add k t1 t2 v1 v2 = Some m12 -> btype W Add t1 t2 = Some rt -> target rt = Some d -> scalar d = true ->
  rt = TPtr d /\ wfty W d = true /\ m12 = (Mod W, Mod W) /\
  exists v, deref_ty v = Some d /\ ref_type_width W v = Some (csize W d) /\
    (v = v1 /\ is_ptr v1 = true /\ is_ptr v2 = false \/ v = v2 /\ is_ptr v2 = true /\ is_ptr v1 = false).
Proof.
  intros W1 W2 U1 U2 Hb Ht Hd Sc. unfold bmodes in Hb. unfold btype in Ht.
  assert (NI : forall t, isint t = true -> is_ptr t = false) by (intros []; try discriminate; auto).
  destruct (decay t1) as [n1 s1|p1| | |] eqn:D1; try discriminate; destruct (decay t2) as [n2 s2|p2| | |] eqn:D2; try discriminate.
  - cbn [is_cmp] in Ht. destruct (uac_wf W HW t1 t2 rt W1 W2 Ht) as (? & ? & -> & _). discriminate.
  - apply Some_inj in Ht. subst rt. cbn in Hd. apply Some_inj in Hd. subst p2. destruct (compat t2 v2 && isint v1) eqn:E; [|discriminate].
    apply andb_true_iff in E as [E1 E2]. cbn [negb] in Hb. destruct (_ && _); [|discriminate]. apply Some_inj in Hb.
    destruct (compat_ref W HW t2 v2 d U2 E1 D2) as (Rf & Ip & Ic & Df & _). repeat split; auto; [apx wf_target; [exact W2|exact D2]|].
    exists v2. auto 10.
  - apply Some_inj in Ht. subst rt. cbn in Hd. apply Some_inj in Hd. subst p1. destruct (compat t1 v1 && isint v2) eqn:E; [|discriminate].
    apply andb_true_iff in E as [E1 E2]. cbn [negb] in Hb. destruct (_ && _); [|discriminate]. apply Some_inj in Hb.
    destruct (compat_ref W HW t1 v1 d U1 E1 D1) as (Rf & Ip & Ic & Df & _). repeat split; auto; [apx wf_target; [exact W1|exact D1]|].
    exists v1. auto 10.
Qed.
Lemma index_ok E s Q v1 v2 st u code s' base p f ws m0 r m wx wy a d v :
  codegen_index W v1 v2 st = Some (u, code, s') -> placed p code ->
  St (live E) (cmem s) base (wy :: wx :: ws) m0 r m -> mb W Add v1 v2 wx wy = Some a ->
  scalar d = true -> wfty W d = true -> 0 <= a < MOD -> deref_ty v = Some d -> ref_type_width W v = Some (csize W d) ->
  (v = v1 /\ is_ptr v1 = true /\ is_ptr v2 = false \/ v = v2 /\ is_ptr v2 = true /\ is_ptr v1 = false) ->
  reads W E d a s Q ->
  (forall x r' m' f', Q x s -> inr_ W d x -> St (live E) (cmem s) base (x mod MOD :: ws) m0 r' m' ->
     wp F (MS r' m' (cb + (p + hsize code)) f' (cout s) (cin s) mp)) ->
  wp F (MS r m (cb + p) f (cout s) (cin s) mp).
Proof.
  intros HC Hp H HM Sc Wd Ra Df Rf Hv HR K. unfold codegen_index, mulp in HC. destruct s'.
  unfold mb in HM. cbn [is_cmp] in HM. unfold scaled in HM. mi1. mi1. mi1. mi1. mi1. mi1. mi1. mi1.
  match goal with H : (_, _) = (_, _) |- _ => apply pair_equal_spec in H; destruct H as [-> ->] end.
  unfold reg_X, reg_Y in *. norm Hp.
  destruct Hv as [(-> & P1 & P2)|(-> & P2 & P1)]; rewrite P1, P2 in *; cbn [negb andb] in *; mj;
    repeat match goal with E : ref_type_width W _ = Some ?a |- _ => lazymatch E with Rf => fail | _ => rewrite Rf in E; apply Some_inj in E; subst a end
    | E : deref_ty _ = Some ?a |- _ => lazymatch E with Df => fail | _ => rewrite Df in E; apply Some_inj in E; subst a end end;
    rewrite Rf in HM; destruct (okscale _) eqn:Ow in HM; try discriminate; apply Some_inj in HM; unfold reg_X, reg_Y in *; norm Hp;
    tpop H Hp r1 Ey Eq1; tpop H Hp r2 Ex Eq2; rewrite <- Eq2 in Ey by lia;
    (ap r_mulp; [exact H|exact Hp|lia|exact Rf|exact Ow|]); clear H; intros r3 m3 f3 H E3 Eq3;
    apply (placed_app _ _ _ _ HW) in Hp as [_ Hp];
    talu H Hp r4 E4 Eq4; rewrite E3, Eq3, Ex, Ey, HM in E4 by lia;
    (apx rd_obj; [exact H|reflexivity|reflexivity|exact Sc|exact Wd|exact E4|exact Ra|discriminate|discriminate|exact HR|apx okw_sc; auto|exact Hp|]);
    clear H; intros vv r5 HQ HI E5 _ H; nx Hp; tpush H Hp r6 m6 Eq6; rewrite E5 in H; fin K; eauto.
Qed.
Lemma x_idx k a b : EX k a -> EX k b -> EX (S (S k)) (EIdx a b).
Proof.
  intros IHa IHb. case0. destruct (ctype W funs (tys (vars E)) (EIdx a b)) as [d|] eqn:Ect; [|contradiction].
  rewrite cl_eq in HC. unfold cl_body in HC. cbv beta iota zeta in HC. pose proof Ect as Ect'. cbn [ctype] in Ect.
  destruct (ty2 W funs (tys (vars E)) a) as [[t1 v1]|] eqn:Ea; [|discriminate]. destruct (ty2 W funs (tys (vars E)) b) as [[t2 v2]|] eqn:Eb; [|discriminate].
  destruct (ty3 _ _ _ _ _ _ HV Ea) as (C1 & _ & W1 & U1 & V1). destruct (ty3 _ _ _ _ _ _ HV Eb) as (C2 & _ & W2 & U2 & V2).
  rewrite C1, C2 in HC, Ect. destruct (btype W Add t1 t2) as [rt|] eqn:Et; [|discriminate]. 
  destruct (bmodes W Add W t1 t2 v1 v2) as [m12|] eqn:Em; [|discriminate]. rewrite Ect in HS. bt.
  destruct (idx_ty _ _ _ _ _ _ _ _ W1 W2 U1 U2 Em Et Ect ltac:(assumption)) as (-> & Wd & -> & vv & Df & Rf & Hv).
  mi. vtx V1. vtx V2. fsx HV. norm Hp.
  apply (placed_app _ _ _ _ HW) in Hp as [Hp1 Hp]. apply (placed_app _ _ _ _ HW) in Hp as [Hp2 Hp]. rewrite app_nil_r in Hp.
  assert (MW : mok (Mod W)) by (cbn; destruct HW; lia).
  eapply IHa; [exact HC|eassumption|exact MW|eassumption|exact HV|exact Hp1|exact H|lia|].
  clear H. intros vx s1 wx r1 m1 f1 HQ1 Hv1 Rx H. top H. cbv beta in HQ1.
  eapply IHb; [exact HQ1|eassumption|exact MW|eassumption|exact HV|exact Hp2|exact H|rewrite zlen_cons; lia|].
  clear H. intros vy s2 wy r2 m2 f2 HQ2 Hv2 Ry H. top H. cbv beta in HQ2.
  destruct (bval W Add t1 t2 vx vy) as [v|] eqn:Ev; [|contradiction]. cbn [oq] in HQ2.
  destruct (bval_rep W HW Add W t1 t2 v1 v2 (Mod W) (Mod W) (TPtr d) v vx vy wx wy) as (wz & Ez & Rz & Pz & Iz); eauto using vk.
  cbn [inr_] in Iz. assert (wz = v) as -> by (eapply ptr_word; eauto).
  eapply index_ok; [eassumption|exact Hp|exact H|exact Ez|eassumption|exact Wd|exact Iz|exact Df|exact Rf|exact Hv|exact HQ2|].
  clear H. intros xx r3 m3 f3 HQ HI H. fin K; eauto.
  - split; [|discriminate]. rewrite Ect'. intros t Ht. apply Some_inj in Ht as <-. exact HI.
  - apx rep_val; eauto. apx vty_sc; auto.
Qed.
Lemma l_idx k a b : EX k a -> EX k b -> LX (S k) (EIdx a b).
Proof.
  intros IHa IHb E s Q loc fp fs lb u code st' base ws m0 r mm p f HC HS HG HV Hp H Hfp K.
  rewrite cl_eq in HC; rewrite codegen_lvalue_eq in HG; rewrite slv_eq in HS.
  unfold cl_body, codegen_lvalue_body, slv_body in HC, HG, HS; cbv beta iota zeta in HC, HG, HS. destruct st'.
  destruct (ty2 W funs (tys (vars E)) a) as [[t1 v1]|] eqn:Ea; [|discriminate]. destruct (ty2 W funs (tys (vars E)) b) as [[t2 v2]|] eqn:Eb; [|discriminate].
  destruct (ty3 _ _ _ _ _ _ HV Ea) as (C1 & _ & W1 & U1 & V1). destruct (ty3 _ _ _ _ _ _ HV Eb) as (C2 & _ & W2 & U2 & V2).
  rewrite C1, C2 in HC. destruct (bmodes W Add W t1 t2 v1 v2) as [[ma mb0]|] eqn:Em; [|rewrite andb_false_r in HS; discriminate]. bt.
  assert (Pt : (ma, mb0) = (Mod W, Mod W) /\ exists d, btype W Add t1 t2 = Some (TPtr d)).
  { unfold bmodes in Em. unfold btype.
    destruct (decay t1) as [n1 s1|p1| | |] eqn:D1; try discriminate; destruct (decay t2) as [n2 s2|p2| | |] eqn:D2; try discriminate.
    - destruct (uac t1 t2); [|discriminate]. destruct (isint v1 && isint v2) eqn:E1; [|discriminate]. destruct v1; discriminate.
    - destruct (negb _); [discriminate|]. destruct (_ && _); [|discriminate]. apply Some_inj in Em. eauto.
    - destruct (negb _); [discriminate|]. destruct (_ && _); [|discriminate]. apply Some_inj in Em. eauto.
    - destruct (negb _); discriminate. }
  destruct Pt as [Pm [d Et]]. injection Pm as -> ->.
  mi1. match goal with H : (if _ =? 0 then _ else _) _ = _ |- _ => destruct (_ =? 0); [discriminate H|] end.
  unfold lbinop in *. mi. vtx V1. vtx V2. fsx HV. norm Hp.
  apply (placed_app _ _ _ _ HW) in Hp as [Hp1 Hp]. apply (placed_app _ _ _ _ HW) in Hp as [Hp2 Hp]. rewrite ?app_nil_r in *.
  assert (MW : mok (Mod W)) by (cbn; destruct HW; lia).
  eapply IHa; [exact HC|eassumption|exact MW|eassumption|exact HV|exact Hp1|exact H|lia|].
  clear H. intros vx s1 wx r1 m1 f1 HQ1 Hv1 Rx H. top H. cbv beta in HQ1.
  eapply IHb; [exact HQ1|eassumption|exact MW|eassumption|exact HV|exact Hp2|exact H|rewrite zlen_cons; lia|].
  clear H. intros vy s2 wy r2 m2 f2 HQ2 Hv2 Ry H. top H. cbv beta in HQ2.
  destruct (bval W Add t1 t2 vx vy) as [v|] eqn:Ev; [|contradiction]. cbn [oq] in HQ2.
  destruct (bval_rep W HW Add W t1 t2 v1 v2 (Mod W) (Mod W) (TPtr d) v vx vy wx wy) as (wz & Ez & Rz & Pz & Iz); eauto using vk.
  cbn [inr_] in Iz. assert (wz = v) as -> by (eapply ptr_word; eauto).
  ap binop_ok; [eassumption|exact Hp|exact H|exact Ez|]. clear H. intros r3 m3 f3 H. fin K; eauto.
Qed.
End X.
