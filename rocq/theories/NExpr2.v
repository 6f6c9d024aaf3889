(** * Expressions, continued: unary and binary operators *)
From Coq Require Import ZArith List Lia Bool.
From Verif Require Import Base Asm AsmProof X86 X86Proof X86Sem NMach NPtr CLang NGen NSupp NBin NRun NBop NEqs NStat NJudge NExpr.
Import ListNotations.
Open Scope Z_scope.

Section X.
Variables (W slim STOP cb GB : Z) (bytes : list Z) (lab : Z -> option Z).
Variables (funs : cdecls) (gvars : list (Z * (Z * ty))) (glo : list gbnd) (F : mst -> Prop) (mp : list Z).
Hypothesis HW : W = 4 \/ W = 8.
Hypothesis Hslim : 0 < slim.
Hypothesis Hstop : STOP < MOD W.
Hypothesis Hdis : STOP <= cb \/ cb + zlen bytes <= slim.
Hypothesis Hcb : 0 <= cb /\ cb + zlen bytes <= MOD W.
Hypothesis HF : decl_ok funs glo.
Set Default Proof Using "HW Hslim Hstop Hdis Hcb HF".
Notation placed := (placed W cb bytes lab).
Notation hsize := (hsize W).
Notation wp := (wp W slim).
Notation MOD := (MOD W).
Notation St := (St W slim STOP cb GB bytes).
Notation EX := (EX W slim STOP cb GB bytes lab funs gvars glo F mp).
Notation LX := (LX W slim STOP cb GB bytes lab funs gvars glo F mp).
Notation AX := (AX W slim STOP cb GB bytes lab funs gvars glo F mp).
Notation CX := (CX W slim STOP cb GB bytes lab funs gvars glo F mp).
Notation VR := (VR W GB glo).
Notation vok := (vok W funs).

(** Types of a subexpression. *)
Lemma ty2i V loc fp e c v : VR V loc fp -> ty2 W funs (tys V) e = Some (c, v) ->
  ctype W funs (tys V) e = Some c /\ value_type (lookupZ (tys V)) (ftab funs) (mtab funs) e = Some v /\ wfty W c = true /\ wfty W v = true /\ vt glo loc e = Some v.
Proof. intros HV. apply ty2_inv; auto. eapply VR_ty; eauto. Qed.
Lemma vok_ty E e v t : vok E e v -> ctype W funs (tys (vars E)) e = Some t -> inr_ W t v.
Proof. intros [H _]. apply H. Qed.
Lemma wf_target c t : wfty W c = true -> decay c = TPtr t -> wfty W t = true.
Proof. destruct c; cbn [decay wfty]; try discriminate; intros H E; injection E as ->; bt; auto. Qed.
Lemma target_decay c t : target c = Some t -> decay c = TPtr t.
Proof. destruct c; cbn; try discriminate; congruence. Qed.
Ltac kty := split; [intros tt0 Ht0; cbn [ctype] in Ht0|discriminate].
Lemma topw L mem base ws m0 w r m : St L mem base (w :: ws) m0 r m -> 0 <= w < MOD.
Proof. intros H. destruct (St_top W slim STOP cb GB bytes HW Hslim Hstop Hdis L mem m0 base ws w r m H) as (_ & R & _). exact R. Qed.

Lemma x_deref k e : EX k e -> EX (S (S k)) (EDeref e).
Proof.
  intros IH. case0. destruct (ctype W funs (tys (vars E)) (EDeref e)) as [t|] eqn:Ect; [|contradiction].
  rewrite cl_eq in HC. unfold cl_body in HC. cbv beta iota zeta in HC. cbn [ctype] in Ect.
  destruct (ty2 W funs (tys (vars E)) e) as [[c v]|] eqn:E2; [|discriminate]. destruct (ty2i _ _ _ _ _ _ HV E2) as (C1 & V1 & W1 & W2 & V2).
  rewrite C1 in Ect. rewrite Ect in HS. bt. pose proof (target_decay _ _ Ect) as Dc.
  destruct (compat_ref W HW c v t W2 ltac:(assumption) Dc) as (Rf & Ip & Ic & Df & _).
  pose proof (wf_target _ _ W1 Dc) as Wt.
  mi1. mi1. mi1. mi1. mi1. match goal with E : vt _ _ _ = Some ?a |- _ => rewrite V2 in E; apply Some_inj in E; subst a end. rewrite Ip in *. mj.
  repeat match goal with E : ref_type_width W v = Some ?a |- _ => rewrite Rf in E; apply Some_inj in E; subst a
    | E : deref_ty v = Some ?a |- _ => rewrite Df in E; apply Some_inj in E; subst a end.
  norm Hp. apply (placed_app _ _ _ _ HW) in Hp as [Hp1 Hp].
  eapply IH; [exact HC|eassumption|cbn; destruct HW; lia|eassumption|exact HV|exact Hp1|exact H|lia|].
  clear H. intros a s' w r1 m1 f1 HR Hv Rw H. pose proof (vok_ty _ _ _ _ Hv C1) as Ia. pose proof (inr_ptr W c t a Dc Ia) as Ra.
  assert (w = a) as -> by (eapply ptr_word; eauto; eapply topw; exact H).
  unfold reg_X in *. tpop H Hp r2 E0 Eq.
  apx rd_obj; [exact H|reflexivity|reflexivity|eassumption|exact Wt|exact E0|exact Ra|discriminate|discriminate|exact HR|eassumption|exact Hp|].
  clear H. intros vv r3 HQ HI E3 _ H. nx Hp. tpush H Hp r4 m4 Eq4. rewrite E3 in H. fin K; eauto.
  - kty. rewrite C1, Ect in *. congruence.
  - apx rep_val; eauto. apx vty_sc; auto.
Qed.
Lemma rep_refl m w : rep m w w.
Proof. destruct m; cbn; [apply eqm_refl|reflexivity]. Qed.
Lemma mokW : mok W (Mod W). Proof. cbn. destruct HW; lia. Qed.
Lemma mokk m : mok W m -> mok W (Mod (kof W m)).
Proof. intros H. cbn. apx mok_kof; auto. Qed.
Lemma x_addr k e : LX k e -> EX (S k) (EAddr e).
Proof.
  intros IH. case0. mi. rewrite !app_nil_r in *. eapply IH; eauto.
  intros a s' r' m' f' HQ Ra HH. eapply K; eauto; [|apply rep_refl]. kty.
  destruct (ctype W funs (tys (vars E)) e); [|discriminate]. injection Ht0 as <-. exact Ra.
Qed.
Lemma l_par k e : LX k e -> LX (S k) (EPar e).
Proof.
  intros IH E s Q loc fp fs lb u code st' base ws m0 r mm p f HC HS HG HV Hp H Hfp K.
  rewrite cl_eq in HC; rewrite slv_eq in HS; rewrite codegen_lvalue_eq in HG.
  unfold cl_body, slv_body, codegen_lvalue_body in HC, HS, HG; cbv beta iota zeta in HC, HS, HG. destruct st'.
  mi1. mi. match goal with H : (if ?b then _ else _) _ = Some _ |- _ => destruct b end; mi. rewrite !app_nil_r in *. eapply IH; eauto.
Qed.
Lemma l_deref k e : EX k e -> LX (S k) (EDeref e).
Proof.
  intros IH E s Q loc fp fs lb u code st' base ws m0 r mm p f HC HS HG HV Hp H Hfp K.
  rewrite cl_eq in HC; rewrite slv_eq in HS; rewrite codegen_lvalue_eq in HG.
  unfold cl_body, slv_body, codegen_lvalue_body in HC, HS, HG; cbv beta iota zeta in HC, HS, HG. destruct st'.
  destruct (ty2 W funs (tys (vars E)) e) as [[c v]|] eqn:E2; [|discriminate]. destruct (ty2i _ _ _ _ _ _ HV E2) as (C1 & V1 & W1 & W2 & V2). bt.
  mi1. mi. match goal with H : (if ?b then _ else _) _ = Some _ |- _ => destruct b end; mi. rewrite !app_nil_r in *.
  assert (exists t, decay c = TPtr t) as [t Dc].
  { match goal with H : ref_type_width W ?a = Some _, H1 : vt _ _ e = Some ?a |- _ => rewrite V2 in H1; apply Some_inj in H1; subst a; unfold ref_type_width in H end.
    unfold compat in *. destruct c, v; cbn in *; try discriminate; eauto. }
  eapply IH; [exact HC|eassumption|apply mokW|eassumption|exact HV|exact Hp|exact H|lia|].
  clear H. intros a s' w r1 m1 f1 HR Hv Rw H. pose proof (vok_ty _ _ _ _ Hv C1) as Ia. pose proof (inr_ptr W c t a Dc Ia) as Ra.
  assert (w = a) as -> by (eapply ptr_word; eauto; eapply topw; exact H). eapply K; eauto.
Qed.
Lemma vty_prom n s0 : wfty W (TInt n s0) = true -> vty W (promote (TInt n s0)).
Proof. intros Hw. split; [apply promote_wf; auto|]. cbn. destruct (n <? 4); discriminate. Qed.
Lemma x_plus k e : EX k e -> EX (S k) (EPlus e).
Proof.
  intros IH. case0. destruct (ty2 W funs (tys (vars E)) e) as [[c v]|] eqn:E2; [|discriminate].
  destruct (ty2i _ _ _ _ _ _ HV E2) as (C1 & V1 & W1 & W2 & V2). rewrite C1 in HC. destruct c as [n s0| | | |]; try contradiction. bt.
  mi. rewrite !app_nil_r in *.
  eapply IH; [exact HC|eassumption|now apply mokk|eassumption|exact HV|exact Hp|exact H|lia|].
  clear H. intros vv s' w r1 m1 f1 HQ Hv Rw H. pose proof (vok_ty _ _ _ _ Hv C1) as Ia.
  assert (I2 : inr_ W (promote (TInt n s0)) vv) by (apply promote_sub; auto; apply wf_int in W1; auto).
  eapply K; eauto.
  - kty. rewrite C1 in Ht0. congruence.
  - apx rep_mode; eauto; [now apply vty_prom|eapply topw; exact H].
Qed.
Lemma prom_fit k n s0 x v : wfty W (TInt n s0) = true -> 0 <= k -> sgnd (promote (TInt n s0)) || (k <=? csize W (promote (TInt n s0))) = true ->
  fit W (promote (TInt n s0)) x = Some v -> eqm k v x /\ inr_ W (promote (TInt n s0)) v.
Proof.
  intros Hw Hk Hg Hf. pose proof (promote_wf W _ Hw) as Hp. cbn [promote] in *. unfold tint in *.
  destruct (n <? 4); apply wf_int in Hp; auto; cbn [sgnd csize] in Hg; eapply fit_cong; eauto.
Qed.
Lemma x_neg k e : EX k e -> EX (S k) (ENeg e).
Proof.
  intros IH. case0. destruct (ty2 W funs (tys (vars E)) e) as [[c v]|] eqn:E2; [|discriminate].
  destruct (ty2i _ _ _ _ _ _ HV E2) as (C1 & V1 & W1 & W2 & V2). rewrite C1 in HC. destruct c as [n s0| | | |]; try contradiction. bt.
  mi. norm Hp. apply (placed_app _ _ _ _ HW) in Hp as [Hp1 Hp].
  pose proof (mokk m Hm) as Hk. cbn [mok] in Hk.
  eapply IH; [exact HC|eassumption|exact Hk|eassumption|exact HV|exact Hp1|exact H|lia|].
  clear H. intros vv s' w r1 m1 f1 HQ Hv Rw H. pose proof (vok_ty _ _ _ _ Hv C1) as Ia. pose proof (topw _ _ _ _ _ _ _ _ H) as Rg.
  cbv beta in HQ. destruct (fit W (promote (TInt n s0)) _) as [v'|] eqn:Ef; [|contradiction]. cbn [oq] in HQ.
  destruct (prom_fit _ _ _ _ _ W1 (proj1 Hk) ltac:(eassumption) Ef) as [Ev Iv].
  unfold reg_X, reg_Y in *. tpop H Hp r2 E0 Eq. talu H Hp r3 E3 Eq3. talu H Hp r4 E4 Eq4. rewrite E3, Eq3, E0, Z.lxor_nilpotent in E4 by lia.
  tpush H Hp r5 m5 Eq5. rewrite E4 in H. pose proof (topw _ _ _ _ _ _ _ _ H) as Rg'. fin K; eauto.
  - kty. rewrite C1 in Ht0. congruence.
  - apx rep_mode; [eapply vty_prom; exact W1|exact Iv|exact Rg'|]. cbn [rep] in *.
    eapply eqm_trans; [apply eqm_MOD; exact Hk|]. eapply eqm_trans; [|apply eqm_sym, Ev].
    change (- vv) with (0 - vv). apply eqm_sub; [apply eqm_refl|exact Rw].
Qed.
Lemma x_bnot k e : EX k e -> EX (S k) (EBnot e).
Proof.
  intros IH. case0. destruct (ty2 W funs (tys (vars E)) e) as [[c v]|] eqn:E2; [|discriminate].
  destruct (ty2i _ _ _ _ _ _ HV E2) as (C1 & V1 & W1 & W2 & V2). rewrite C1 in HC. destruct c as [n s0| | | |]; try contradiction. bt.
  mi. norm Hp. apply (placed_app _ _ _ _ HW) in Hp as [Hp1 Hp].
  pose proof (mokk m Hm) as Hk. cbn [mok] in Hk.
  eapply IH; [exact HC|eassumption|exact Hk|eassumption|exact HV|exact Hp1|exact H|lia|].
  clear H. intros vv s' w r1 m1 f1 HQ Hv Rw H. pose proof (vok_ty _ _ _ _ Hv C1) as Ia. pose proof (topw _ _ _ _ _ _ _ _ H) as Rg.
  cbv beta in HQ. destruct (fit W (promote (TInt n s0)) _) as [v'|] eqn:Ef; [|contradiction]. cbn [oq] in HQ.
  destruct (prom_fit _ _ _ _ _ W1 (proj1 Hk) ltac:(eassumption) Ef) as [Ev Iv].
  unfold reg_X, reg_Y in *. tpop H Hp r2 E0 Eq. tmovi H Hp r3 E3 Eq3. talu H Hp r4 E4 Eq4. rewrite E3, Eq3, E0 in E4 by lia.
  tpush H Hp r5 m5 Eq5. rewrite E4 in H. pose proof (topw _ _ _ _ _ _ _ _ H) as Rg'. fin K; eauto.
  - kty. rewrite C1 in Ht0. congruence.
  - apx rep_mode; [eapply vty_prom; exact W1|exact Iv|exact Rg'|]. cbn [rep] in *.
    eapply eqm_trans; [|apply eqm_sym, Ev]. replace (- vv - 1) with (Z.lxor (-1) vv) by (rewrite Z.lxor_m1_l; unfold Z.lnot; lia).
    apply eqm_lxor; [lia| |exact Rw]. apply eqm_MOD. exact Hk.
Qed.
Lemma x_not k e : EX k e -> EX (S k) (ENot e).
Proof.
  intros IH. case0. destruct (ty2 W funs (tys (vars E)) e) as [[c v]|] eqn:E2; [|discriminate].
  destruct (ty2i _ _ _ _ _ _ HV E2) as (C1 & V1 & W1 & W2 & V2). unfold lbinop in HG.
  mi. norm Hp. unfold reg_X in *. talu H Hp r1 E0 Eq. rewrite Z.lxor_nilpotent in E0. tpush H Hp r2 m2 Eq2. rewrite E0 in H.
  apply (placed_app _ _ _ _ HW) in Hp as [Hp1 Hp]. apply (placed_app _ _ _ _ HW) in Hp as [Hp2 _].
  eapply IH; [exact HC|exact HS|exact I|eassumption|exact HV|exact Hp1|exact H|rewrite zlen_cons; lia|].
  clear H. intros vv s' w r3 m3 f3 HQ Hv Rw H.
  ap binop_ok; [eassumption|exact Hp2|exact H|reflexivity|]. cbn [cond_of]. clear H. intros r4 m4 f4 H.
  assert (Eb : b2i (0 =? w) = b2i (vv =? 0)).
  { cbn [rep] in Rw. destruct (Z.eqb_spec 0 w), (Z.eqb_spec vv 0); auto; exfalso; intuition. }
  fin K; [exact HQ| |rewrite <- Eb; apply rep_refl|exact H].
  - split; [|intros _; unfold b2i; destruct (_ =? _); auto]. cbn [ctype]. rewrite C1. intros t Ht. destruct (scalar _); [|discriminate].
    apply Some_inj in Ht as <-. apply b2i_tint.
Qed.
End X.
