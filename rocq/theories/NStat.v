(** * Static facts about generated code: types agree, one word per value *)
From Coq Require Import ZArith List Lia Bool.
From Verif Require Import Base Asm AsmProof X86 X86Proof X86Sem NMach NPtr CLang NGen NSupp NBin NRun NBop NEqs.
Import ListNotations.
Open Scope Z_scope.

Scheme expr_ind2 := Induction for expr Sort Prop with args_ind2 := Induction for args Sort Prop.
Combined Scheme expr_args_ind from expr_ind2, args_ind2.

Lemma vt_mono (tv tv' tf tf' : Z -> option ty) (tm tm' : Z -> Z -> option ty) : (forall x t, tv x = Some t -> tv' x = Some t) -> (forall x t, tf x = Some t -> tf' x = Some t) ->
  (forall x m t, tm x m = Some t -> tm' x m = Some t) ->
  forall e u, value_type tv tf tm e = Some u -> value_type tv' tf' tm' e = Some u.
Proof.
  intros HV HF HM. induction e; intros u H; cbn [value_type] in H |- *; auto.
  - destruct (value_type tv tf tm e); [|discriminate]. rewrite (IHe _ eq_refl). exact H.
  - destruct (value_type tv tf tm e); [|discriminate]. rewrite (IHe _ eq_refl). exact H.
  - destruct (is_cmp o); auto. destruct (value_type tv tf tm e1); [|discriminate]. destruct (value_type tv tf tm e2); [|discriminate].
    rewrite (IHe1 _ eq_refl), (IHe2 _ eq_refl). exact H.
  - destruct (value_type tv tf tm e1); [|discriminate]. destruct (value_type tv tf tm e2); [|discriminate].
    rewrite (IHe1 _ eq_refl), (IHe2 _ eq_refl). exact H.
  - destruct (value_type tv tf tm e) as [[]|]; try discriminate. rewrite (IHe _ eq_refl). auto.
  - destruct (value_type tv tf tm e) as [[|[]| | |]|]; try discriminate. rewrite (IHe _ eq_refl). auto.
Qed.
(** Taking apart a successful static check. *)
Ltac bt := repeat match goal with
  | H : _ && _ = true |- _ => apply andb_true_iff in H; destruct H
  | H : match ?x with _ => _ end = true |- _ => destruct x eqn:?; try discriminate H
  end.

(** The compiler's tables have what the program declares. *)
Definition decl_ok (funs : cdecls) (glo : list gbnd) : Prop :=
  (forall f t, ftab funs f = Some t -> fun_type glo f = Some t) /\ (forall id m r, dmem funs id m = Some r -> look_mem glo id m = Some r).
Section F.
Variables (W : Z) (funs : cdecls) (glo : list gbnd) (loc : list bnd) (G : list (Z * ty)).
Hypothesis HW : W = 4 \/ W = 8.
Hypothesis HG : forall x t, lookupZ G x = Some t -> var_type glo loc x = Some t.
Hypothesis HF : decl_ok funs glo.

Lemma ty2_inv e c v : ty2 W funs G e = Some (c, v) ->
  ctype W funs G e = Some c /\ value_type (lookupZ G) (ftab funs) (mtab funs) e = Some v /\ wfty W c = true /\ wfty W v = true /\ vt glo loc e = Some v.
Proof.
  unfold ty2. destruct (ctype W funs G e) as [c'|]; [|discriminate]. destruct (value_type _ _ _ e) as [v'|] eqn:E; [|discriminate].
  destruct (wfty W c' && wfty W v') eqn:Ew; [|discriminate]. injection 1 as <- <-. apply andb_true_iff in Ew as [-> ->].
  repeat split; auto. unfold vt. eapply vt_mono; [exact HG|exact (proj1 HF)| |exact E].
  intros x m t. unfold mtab, mem_type. destruct (dmem funs x m) as [r|] eqn:E2; [|discriminate]. now rewrite (proj2 HF _ _ _ E2).
Qed.
Lemma aligned_word t : wfty W t = true -> is_struct t = false -> type_width W t false true / W = 1.
Proof.
  intros H Hs. unfold type_width, word_size_align. destruct t as [n s|t|t n| |]; cbn [width_of]; try discriminate Hs.
  - apply wf_int in H; auto. unfold isz in H. destruct HW; subst W; destruct H as [-> | [-> | [-> | [-> H]]]]; try reflexivity; lia.
  - destruct HW; subst W; reflexivity.
  - destruct HW; subst W; reflexivity.
  - destruct HW; subst W; reflexivity.
Qed.

Definition fs_stmt e := (forall m s u c s', supp W funs G m e = true -> codegen_rvalue W glo loc e s = Some (u, c, s') -> fst s' = fst s + 1) /\
  (forall s u c s', slv W funs G e = true -> codegen_lvalue W glo loc e s = Some (u, c, s') -> fst s' = fst s + 1).
Lemma lbinop_fs op t1 t2 s u code s' : lbinop W op t1 t2 s = Some (u, code, s') -> fst s' = fst s.
Proof.
  unfold lbinop. intros H. destruct s, s'. mi. apply binop_fs in H. exact H.
Qed.
Lemma index_fs t1 t2 s u code s' : codegen_index W t1 t2 s = Some (u, code, s') -> fst s' = fst s.
Proof.
  unfold codegen_index, load_mem_location, mulp. intros H. destruct s, s'.
  repeat (mi; match goal with H : (if ?b then _ else _) _ = Some _ |- _ => destruct b end); mi; reflexivity.
Qed.
Ltac fsr := repeat match goal with
  | IH : forall m s u c s', supp _ _ _ m ?e = true -> codegen_rvalue _ _ _ ?e s = _ -> _, H : codegen_rvalue _ _ _ ?e _ = Some _ |- _ =>
      eapply IH in H; [cbn [fst snd] in H|eassumption]
  | IH : forall s u c s', slv _ _ _ ?e = true -> codegen_lvalue _ _ _ ?e s = _ -> _, H : codegen_lvalue _ _ _ ?e _ = Some _ |- _ =>
      eapply IH in H; [cbn [fst snd] in H|eassumption]
  | H : lbinop _ _ _ _ _ = Some _ |- _ => apply lbinop_fs in H; cbn [fst snd] in H
  | H : codegen_index _ _ _ _ = Some _ |- _ => apply index_fs in H; cbn [fst snd] in H
  | IH : forall ts s n c s', sargs _ _ _ ts ?l = true -> codegen_params _ _ _ ?l s = _ -> _, H : codegen_params _ _ _ ?l _ = Some _ |- _ =>
      eapply IH in H; [cbn [fst snd] in H|eassumption]
  | H : _ /\ _ |- _ => destruct H
  end.
Ltac brk := repeat (mi; match goal with
  | H : (if ?b then _ else _) _ = Some _ |- _ => destruct b eqn:?
  | H : load_mem_location _ _ _ _ _ _ _ = Some _ |- _ => unfold load_mem_location in H
  | H : write_mem_location _ _ _ _ _ _ = Some _ |- _ => unfold write_mem_location in H
  end); mi.
Lemma scalar_struct e c v x : ty2 W funs G e = Some (c, v) -> scalar c = true -> ty_eqb c v = true -> vt glo loc e = Some x -> is_struct x = false.
Proof. intros E Sc Q V. apply ty2_inv in E as (_ & _ & _ & _ & V'). apply ty_eqb_eq in Q. subst v. rewrite V' in V. injection V as <-. destruct c; auto; discriminate. Qed.
Lemma struct_struct e c v x : ty2 W funs G e = Some (c, v) -> is_struct c = true -> ty_eqb c v = true -> vt glo loc e = Some x -> is_struct x = true.
Proof. intros E Sc Q V. apply ty2_inv in E as (_ & _ & _ & _ & V'). apply ty_eqb_eq in Q. subst v. rewrite V' in V. injection V as <-. exact Sc. Qed.
Lemma member_fs t m r s u code s' : codegen_member glo t m r s = Some (u, code, s') -> fst s' = fst s.
Proof.
  unfold codegen_member. intros H. destruct t; try discriminate. destruct s, s'. mi1.
  match goal with H : (bind (if ?b then _ else _) _) _ = Some _ |- _ => destruct b end; mi; reflexivity.
Qed.
Ltac nst := try match goal with
  | E : ty2 _ _ _ ?e = Some (?c, ?v), Sc : scalar ?c = true, Q : ty_eqb ?c ?v = true, V : vt _ _ ?e = Some ?x, B : is_struct ?x = true |- _ =>
      rewrite (scalar_struct _ _ _ _ E Sc Q V) in B; discriminate B
  | E : ty2 _ _ _ ?e = Some (?c, ?v), Sc : is_struct ?c = true, Q : ty_eqb ?c ?v = true, V : vt _ _ ?e = Some ?x, B : is_struct ?x = false |- _ =>
      rewrite (struct_struct _ _ _ _ E Sc Q V) in B; discriminate B
  end.
Lemma fs_all : (forall e, fs_stmt e) /\
  (forall l ts s n c s', sargs W funs G ts l = true -> codegen_params W glo loc l s = Some (n, c, s') ->
     fst s' = fst s + zlen ts /\ n = zlen ts).
Proof.
  apply expr_args_ind; unfold fs_stmt.
  all: try (intros; split; [intros m1 s1 u1 c1 s2 HS HH; rewrite codegen_rvalue_eq in HH; rewrite supp_eq in HS; unfold codegen_rvalue_body, supp_body in HS, HH; cbv beta iota in HS, HH
    | intros s1 u1 c1 s2 HS HH; rewrite codegen_lvalue_eq in HH; rewrite slv_eq in HS; unfold codegen_lvalue_body, slv_body in HS, HH; cbv beta iota in HS, HH];
    try discriminate; destruct s1, s2; cbn [fst snd]; unfold codegen_comma in * ).
  all: try match type of HS with (match ty2 W funs G ?a with _ => _ end) = true => match type of HS with context [is_struct _] =>
    destruct (ty2 W funs G a) as [[ca va]|] eqn:?; [|discriminate];
    match type of HS with (match ty2 W funs G ?b with _ => _ end) = true => destruct (ty2 W funs G b) as [[cb vb]|] eqn:?; [|discriminate] end; destruct (is_struct ca) eqn:?; bt; brk; nst; fsr; lia end end.
  all: try (bt; brk; nst; fsr; lia).
  all: try (unfold codegen_mval, codegen_maddr in *; bt; brk; match goal with H : codegen_member _ _ _ _ _ = Some _ |- _ => apply member_fs in H; cbn [fst snd] in H end; fsr; lia).
  1,2: mi1; repeat match goal with H : match ?x with _ => _ end _ = Some _ |- _ => destruct x; try discriminate end; brk; lia.
  1: mi1; mi1; repeat match goal with H : match ?x with _ => _ end _ = Some _ |- _ => destruct x; try discriminate end; bt; brk; fsr; lia.
  - intros ts s n c s' HS H. rewrite codegen_params_eq in H. rewrite sargs_eq in HS. destruct s, s'. cbn in HS, H.
    destruct ts; [|discriminate]. mi. cbn. lia.
  - intros e [IHe _] l IHl ts s n c s' HS H. rewrite codegen_params_eq in H. rewrite sargs_eq in HS. unfold codegen_params_body, sargs_body in HS, H.
    destruct s, s'. destruct ts as [|t ts]; [discriminate|]. bt. mi.
    destruct (ty2 W funs G e) as [[c0 v0]|] eqn:Et; [|discriminate]. apply ty2_inv in Et as (_ & _ & _ & Hv & Ev).
    assert (x1 = v0) as -> by congruence. destruct (is_struct v0) eqn:Es; mi. rewrite aligned_word by (auto; exact Hv). fsr. rewrite zlen_cons. cbn [fst snd]. lia.
Qed.
Lemma rv_fs m e fs lb u c fs' lb' : supp W funs G m e = true -> codegen_rvalue W glo loc e (fs, lb) = Some (u, c, (fs', lb')) -> fs' = fs + 1.
Proof. intros HS H. destruct fs_all as [A _]. eapply (proj1 (A e)) in H; eauto. Qed.
Lemma lv_fs e fs lb u c fs' lb' : slv W funs G e = true -> codegen_lvalue W glo loc e (fs, lb) = Some (u, c, (fs', lb')) -> fs' = fs + 1.
Proof. intros HS H. destruct fs_all as [A _]. eapply (proj2 (A e)) in H; eauto. Qed.
Lemma ar_fs l ts fs lb u c fs' lb' : sargs W funs G ts l = true -> codegen_params W glo loc l (fs, lb) = Some (u, c, (fs', lb')) ->
  fs' = fs + zlen ts /\ u = zlen ts.
Proof. intros HS H. destruct fs_all as [_ A]. eapply A in H; eauto. Qed.
(** The width of an lvalue. *)
Lemma maddr_width u id sz m c s w code s' : match dmem funs id m with Some (_, t) => Some t | None => None end = Some c ->
  codegen_maddr W glo (TStruct u id sz) m s = Some (w, code, s') -> w = csize W c.
Proof.
  intros HC H. destruct (dmem funs id m) as [[off t]|] eqn:E; [|discriminate]. injection HC as ->. apply (proj2 HF) in E.
  unfold codegen_maddr, codegen_member in H. destruct s, s'. brk; match goal with H : look_mem _ _ _ = Some ?r |- _ => rewrite E in H; injection H as <- end; cbn [snd]; unfold type_width; apply width_true.
Qed.
Lemma lv_width e : forall c s w code s', slv W funs G e = true -> ctype W funs G e = Some c -> is_arr c = false ->
  value_type (lookupZ G) (ftab funs) (mtab funs) e = Some c ->
  codegen_lvalue W glo loc e s = Some (w, code, s') -> w = csize W c.
Proof.
  induction e; intros c s w code s' HS HC Sc HV H; rewrite codegen_lvalue_eq in H; rewrite slv_eq in HS; unfold codegen_lvalue_body, slv_body in HS, H;
    cbv beta iota in HS, H; try discriminate; destruct s, s'.
  - cbn [ctype value_type] in HC, HV. pose proof (HG _ _ HC) as Hv. unfold var_type in Hv.
    assert (Wc : type_width W c true false = csize W c) by (unfold type_width; apply width_true).
    mi1. destruct (look_loc x loc) as [[y off t|y off t| |]|].
    3,4: discriminate.
    1,2: apply Some_inj in Hv; subst t; brk; exact Wc.
    destruct (look_glo x glo) as [[off t]|]; [|discriminate]. apply Some_inj in Hv; subst t; brk; exact Wc.
  - cbn [ctype value_type] in HC, HV. mi1. mi. match goal with H : (if ?b then _ else _) _ = Some _ |- _ => destruct b end; mi. eapply IHe; eauto.
  - cbn [ctype value_type] in HC, HV. bt. apply ty2_inv in Heqo as (C1 & V1 & W1 & W2 & V2). rewrite C1 in HC. rewrite V1 in HV. brk.
    match goal with H1 : vt _ _ e = Some ?a, H2 : ref_type_width W ?a = Some _ |- _ => rewrite V2 in H1; injection H1 as <-;
      unfold ref_type_width, type_width in H2; rewrite HV in H2; injection H2 as <- end.
    apply width_csize, Sc.
  - cbn [ctype value_type] in HC, HV. bt. apply ty2_inv in Heqo as (C1 & V1 & W1 & W2 & V2). apply ty2_inv in Heqo0 as (C1' & V1' & W1' & W2' & V2').
    rewrite V1, V1' in HV. match goal with H : is_ptr _ = true |- _ => rewrite H in HV end. brk.
    match goal with H1 : vt _ _ e1 = Some ?a, H2 : ref_type_width W ?a = Some _ |- _ => rewrite V2 in H1; injection H1 as <-;
      unfold ref_type_width, type_width in H2; rewrite HV in H2; injection H2 as <- end.
    apply width_csize, Sc.
  - cbn [ctype value_type] in HC, HV. bt. apply ty2_inv in Heqo as (C1 & V1 & W1 & W2 & V2). rewrite C1 in HC.
    match goal with H : ty_eqb _ _ = true |- _ => apply ty_eqb_eq in H; subst end.
    match goal with H : smem _ _ ?t _ = true |- _ => destruct t; try discriminate H end. unfold member_type in HC.
    mi. match goal with H : vt _ _ _ = Some _ |- _ => rewrite V2 in H; injection H as <- end. cbn [is_struct] in *. mi. match goal with H : (if ?b then _ else _) _ = Some _ |- _ => destruct b; mi end. eapply maddr_width; [exact HC|eassumption].
  - cbn [ctype value_type] in HC, HV. bt. apply ty2_inv in Heqo as (C1 & V1 & W1 & W2 & V2). rewrite C1 in HC. cbn [option_map decay] in HC.
    match goal with H : ty_eqb _ _ = true |- _ => apply ty_eqb_eq in H; subst end.
    match goal with H : smem _ _ ?t _ = true |- _ => destruct t; try discriminate H end. unfold member_type in HC.
    mi. match goal with H : vt _ _ _ = Some _ |- _ => rewrite V2 in H; injection H as <- end. cbn [arrow_type] in *. match goal with H : Some _ = Some _ |- _ => injection H as <- end. cbn [is_struct] in *. mi. match goal with H : (if ?b then _ else _) _ = Some _ |- _ => destruct b; mi end. eapply maddr_width; [exact HC|eassumption].
Qed.
End F.
