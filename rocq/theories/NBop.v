(** * Binary operators: the emitted code leaves [mb] on the stack *)
From Coq Require Import ZArith List Lia Bool.
From Verif Require Import Base Asm AsmProof X86 X86Proof X86Sem NMach NPtr CLang NGen NSupp NBin NRun.
Import ListNotations.
Open Scope Z_scope.

(** Bringing the position of the goal to the form expected by [K]. *)
Ltac fin K :=
  match goal with |- wp _ _ _ (MS _ _ (?cb + ?x) _ _ _ _) =>
    match type of K with context [MS _ _ (cb + ?y) _ _ _ _] =>
      replace x with y by (unfold reg_X, reg_Y in *; rewrite ?hsize_app; cbn [hsize app]; rewrite ?hsize_app; cbn [hsize]; lia) end end;
  eapply K.
Ltac nx Hp := destruct Hp as [_ Hp].

Lemma binop_fs W op t1 t2 fs lb u code s' : codegen_binop W op t1 t2 (fs, lb) = Some (u, code, s') -> fst s' = fs.
Proof.
  unfold codegen_binop. destruct s'. intros H.
  destruct op; cbn [is_cmp] in H; unfold both_num, mulp in H;
    repeat match goal with H : (_ ;;; _) _ = Some _ |- _ => mi1 | H : context [if ?b then _ else _] |- _ => destruct b | _ => mi1 end;
    cbn [fst]; reflexivity.
Qed.
Section B.
Variables (W slim STOP cb GB : Z) (bytes : list Z) (lab : Z -> option Z).
Hypothesis HW : W = 4 \/ W = 8.
Hypothesis Hslim : 0 < slim.
Hypothesis Hstop : STOP < MOD W.
Hypothesis Hdis : STOP <= cb \/ cb + zlen bytes <= slim.
Notation placed := (placed W cb bytes lab).
Notation hsize := (hsize W).
Notation wp := (wp W slim).
Notation MOD := (MOD W).
Notation St := (St W slim STOP cb GB bytes).
Set Default Proof Using "HW Hslim Hstop Hdis".
Ltac ap R := eapply R; [exact HW|exact Hslim|exact Hstop|exact Hdis|..].
Ltac side := first [exact HW | exact Hslim | exact Hstop | exact Hdis | discriminate | lia | assumption].

Lemma lab_of p h l k : placed p (HC h :: k) -> forall m, codeok cb bytes m -> hlabel h = Some l -> exists a, lab l = Some a.
Proof. intros [H _] m Hm Hl. destruct (H m Hm) as [_ [E _]]. specialize (E l Hl). destruct (lab l); [eauto|congruence]. Qed.

Section D.
Variables (L : list (Z * Z)) (mem m0 : Z -> Z) (base : Z) (F : mst -> Prop).

(** exe.c idiv/div/rem: [X := X op Y]. *)
Lemma r_divs p k f o i mp ws r m (sg rm : bool) q :
  let x := r 0 in let y := r 1 in
  St L mem base ws m0 r m ->
  placed p ((if sg then if rm then h_irem_reg_reg 0 1 else h_idiv_reg_reg 0 1 else if rm then h_rem_reg_reg 0 1 else h_div_reg_reg 0 1) ++ k) ->
  (if sg then sgn W y <> 0 /\ - HALF W <= Z.quot (sgn W x) (sgn W y) < HALF W /\ 
              q = (if rm then Z.rem (sgn W x) (sgn W y) else Z.quot (sgn W x) (sgn W y)) mod MOD
   else y <> 0 /\ q = if rm then x mod y else x / y) ->
  (forall r' f', St L mem base ws m0 r' m -> r' 0 = q ->
     wp F (MS r' m (cb + (p + hsize (if sg then if rm then h_irem_reg_reg 0 1 else h_idiv_reg_reg 0 1 else if rm then h_rem_reg_reg 0 1 else h_div_reg_reg 0 1))) f' o i mp)) ->
  wp F (MS r m (cb + p) f o i mp).
Proof.
  intros x y H Hp Hq K. pose proof (MOD_pos W HW) as MP. destruct (MODHALF W HW) as [HM HP].
  pose proof (st_regs _ _ _ _ _ _ _ _ _ _ _ _ _ H) as R. pose proof (R 0) as R0. pose proof (R 1) as R1. fold x in R0. fold y in R1.
  pose proof (st_code _ _ _ _ _ _ _ _ _ _ _ _ _ H) as Hc.
  destruct sg.
  - destruct Hq as (Hd & Hr & ->).
    assert (Key : sgn W (if HALF W <=? x then MOD - 1 else 0) * MOD + x = sgn W x).
    { unfold sgn. destruct (Z.leb_spec (HALF W) x).
      - destruct (Z.leb_spec (HALF W) (MOD - 1)); lia.
      - destruct (Z.leb_spec (HALF W) 0); lia. }
    assert (P' : exists res, placed p ([HC (HAlu Amov 0 0); HC HCdq; HC (HIdiv 1); HC (HAlu Amov 0 res)] ++ k) /\ res = if rm then 2 else 0)
      by (exists (if rm then 2 else 0); destruct rm; split; auto).
    destruct P' as (res & P & Er). cbn [app] in P.
    assert (Hsz : hsize (if rm then h_irem_reg_reg 0 1 else h_idiv_reg_reg 0 1) = hsize [HC (HAlu Amov 0 0); HC HCdq; HC (HIdiv 1); HC (HAlu Amov 0 res)])
      by (subst res; destruct rm; reflexivity).
    rewrite Hsz in K. clear Hp Hsz.
    eapply wp_mov; [exact Hc|exact P|]. nx P. eapply wp_cdq; [exact Hc|exact P|]. nx P.
    eapply wp_idiv with (q := Z.quot (sgn W x) (sgn W y)); [exact Hc|exact P|..].
    { ru. exact Hd. } { ru. fold x y. rewrite Key. reflexivity. } { exact Hr. }
    nx P. ru. fold x y. rewrite Key. eapply wp_mov; [exact Hc|exact P|]. nx P.
    fin K.
    + ap St_regs; [exact H| |ru; reflexivity|ru; reflexivity].
      assert (Rm : 0 <= Z.rem (sgn W x) (sgn W y) mod MOD < MOD) by (apply Z.mod_pos_bound; lia).
      assert (Rq : 0 <= (sgn W x ÷ sgn W y) mod MOD < MOD) by (apply Z.mod_pos_bound; lia).
      assert (R2 : regs_ok W (upd (upd r 0 x) 2 (if HALF W <=? x then MOD - 1 else 0))).
      { apply regs_upd; [apply regs_upd; auto|]. destruct (_ <=? _); lia. }
      apply regs_upd; [apply regs_upd; auto; apply regs_upd; auto|]. subst res. destruct rm; ru; auto.
    + ru. subst res. destruct rm; ru; reflexivity.
  - destruct Hq as (Hd & ->).
    assert (P' : exists res, placed p ([HC (HAlu Amov 0 0); HC (HMovImm 2 0); HC (HDiv 1); HC (HAlu Amov 0 res)] ++ k) /\ res = if rm then 2 else 0)
      by (exists (if rm then 2 else 0); destruct rm; split; auto).
    destruct P' as (res & P & Er). cbn [app] in P.
    assert (Hsz : hsize (if rm then h_rem_reg_reg 0 1 else h_div_reg_reg 0 1) = hsize [HC (HAlu Amov 0 0); HC (HMovImm 2 0); HC (HDiv 1); HC (HAlu Amov 0 res)])
      by (subst res; destruct rm; reflexivity).
    rewrite Hsz in K. clear Hp Hsz.
    eapply wp_mov; [exact Hc|exact P|]. nx P. eapply wp_movimm; [exact Hc|exact P|]. nx P.
    eapply wp_udiv; [exact Hc|exact P|..]; [ru; reflexivity|ru; fold x; lia|ru; fold y; lia|]. ru. fold x y.
    nx P. eapply wp_mov; [exact Hc|exact P|]. nx P.
    assert (Rm : 0 <= x mod y < MOD) by (pose proof (Z.mod_pos_bound x y); lia).
    assert (Rq : 0 <= x / y < MOD) by (split; [apply Z.div_pos; lia|apply Z.le_lt_trans with x; [apply Z.div_le_upper_bound; nia|lia]]).
    fin K.
    + ap St_regs; [exact H| |ru; reflexivity|ru; reflexivity].
      assert (R2 : regs_ok W (upd (upd r 0 x) 2 (0 mod MOD))).
      { apply regs_upd; [apply regs_upd; auto|]. apply Z.mod_pos_bound; lia. }
      apply regs_upd; [apply regs_upd; auto; apply regs_upd; auto|]. subst res. destruct rm; ru; auto.
    + ru. subst res. destruct rm; ru; reflexivity.
Qed.
Lemma r_shifts p k f o i mp ws r m kd :
  St L mem base ws m0 r m -> placed p (h_shift kd 0 1 ++ k) ->
  let c := r 1 mod shift_count W in
  (forall r' f', St L mem base ws m0 r' m -> r' 0 = (match kd with X86.Shl => (r 0 * 2 ^ c) mod MOD | X86.Shr => r 0 / 2 ^ c | X86.Sar => (sgn W (r 0) / 2 ^ c) mod MOD end) ->
     wp F (MS r' m (cb + (p + hsize (h_shift kd 0 1))) f' o i mp)) ->
  wp F (MS r m (cb + p) f o i mp).
Proof.
  intros H Hp c K. pose proof (MOD_pos W HW) as MP. unfold h_shift in *. change CX with 1 in *. cbn [app] in Hp.
  pose proof (st_code _ _ _ _ _ _ _ _ _ _ _ _ _ H) as Hc. pose proof (st_regs _ _ _ _ _ _ _ _ _ _ _ _ _ H) as R.
  eapply wp_mov; [exact Hc|exact Hp|]. nx Hp. eapply wp_shift; [exact Hc|exact Hp|]. ru. fold c.
  assert (C : 0 <= c) by (unfold c, shift_count; destruct (W =? 8); apply Z.mod_pos_bound; lia).
  assert (P2 : 0 < 2 ^ c) by (apply Z.pow_pos_nonneg; lia).
  fin K; [|ru; reflexivity].
  ap St_regs; [exact H| |ru; reflexivity|ru; reflexivity].
  apply regs_upd; [apply regs_upd; auto|]. destruct kd; try (apply Z.mod_pos_bound; lia).
  pose proof (R 0). split; [apply Z.div_pos; lia|apply Z.le_lt_trans with (r 0); [apply Z.div_le_upper_bound; nia|lia]].
Qed.


Lemma binop_ok op t1 t2 st u code s' p f o i mp ws r m wx wy wz :
  codegen_binop W op t1 t2 st = Some (u, code, s') -> placed p code ->
  St L mem base (wy :: wx :: ws) m0 r m -> mb W op t1 t2 wx wy = Some wz ->
  (forall r' m' f', St L mem base (wz :: ws) m0 r' m' -> wp F (MS r' m' (cb + (p + hsize code)) f' o i mp)) ->
  wp F (MS r m (cb + p) f o i mp).
Proof.
  intros HC Hp H HM K. unfold codegen_binop in HC. pose proof (MOD_pos W HW) as MP.
  apply bind_inv in HC as (? & ? & [? ?] & c0 & HC1 & HC & ->).
  apply bind_inv in HC as (? & ? & [? ?] & c1 & HC2 & HC & ->).
  apply bind_inv in HC as (? & cop & [? ?] & c2 & HC3 & HC4 & ->).
  unfold pop, push in HC1, HC2, HC4. apply emit_inv in HC1 as [-> _], HC2 as [-> _], HC4 as [-> _].
  cbn [app] in Hp. unfold reg_X, reg_Y in *.
  ap r_pop; [exact H|exact Hp|side|side|]. intros r1 H1 Ey _. nx Hp. clear r H.
  ap r_pop; [exact H1|exact Hp|side|side|]. intros r H Ex Eq. nx Hp. rewrite <- (Eq 1) in Ey by lia. clear r1 H1 Eq.
  set (p2 := p + ilen W (HPop 1) + ilen W (HPop 0)) in *. apply (placed_app _ _ _ _ HW) in Hp as [Hp Hp'].
  (* what the operation must do *)
  assert (Op : (forall r' m' f', St L mem base ws m0 r' m' -> r' 0 = wz -> wp F (MS r' m' (cb + (p2 + hsize cop)) f' o i mp)) ->
               forall f, wp F (MS r m (cb + p2) f o i mp)).
  2: { apply Op. intros r' m' f' H' E0. ap r_push; [exact H'|exact Hp'|]. intros r2 m2 H2 _. rewrite E0 in H2.
       cbn [app] in K. fin K. exact H2. }
  clear K Hp' f. intros K f. subst p2. set (p2 := p + ilen W (HPop 1) + ilen W (HPop 0)) in *. clearbody p2.
  pose proof (st_code _ _ _ _ _ _ _ _ _ _ _ _ _ H) as Hcode.
  assert (Alu : forall a v, cop = [HC (HAlu a 0 1)] -> aluv W a wx wy = Some v -> v = wz -> wp F (MS r m (cb + p2) f o i mp)).
  { intros a v -> E1 <-. ap r_alu; [exact H|exact Hp|side|side|rewrite Ex, Ey; exact E1|].
    intros r' H' E _. fin K; eauto. }
  destruct (is_cmp op) eqn:Hcmp.
  - unfold mb in HM. rewrite Hcmp in HM. destruct (ccsem W _ wx wy) as [b|] eqn:Ecc; [|discriminate]. injection HM as <-.
    unfold h_jump_cond_reg_reg in HC3. mi. cbn [app] in Hp, K. unfold reg_X, reg_Y in *.
    pose proof Hp as Hp1. nx Hp1. destruct (lab_of _ _ _ _ Hp1 m Hcode eq_refl) as [a1 La1].
    ap r_cmpjump; [exact H|exact Hp|exact La1|rewrite Ex, Ey; exact Ecc|]. intros f'. nx Hp. nx Hp.
    pose proof Hp as Hp2. nx Hp2. destruct (lab_of _ _ _ _ Hp2 m Hcode eq_refl) as [a2 La2].
    destruct Hp2 as [_ [E1 [Hmi [E2 _]]]]. destruct b.
    + rewrite La1 in E1. injection E1 as ->. eapply r_movi with (k := []); [exact HW|exact Hslim|exact Hstop|exact Hdis|exact H|split; [exact Hmi|exact I]|side|side|]. intros r' H' E0 _. fin K; eauto.
      rewrite E0. apply Z.mod_small. assert (2 <= MOD) by (unfold X86Sem.MOD; destruct HW as [-> | ->]; discriminate). cbn; lia.
    + ap r_alu; [exact H|exact Hp|side|side|reflexivity|]. intros r' H' E0 _. nx Hp.
      ap r_jump; [exact H'|exact Hp|exact La2|]. rewrite La2 in E2. injection E2 as ->. fin K; eauto. rewrite E0. apply Z.lxor_nilpotent.
  - unfold mb in HM. rewrite Hcmp in HM. unfold both_num, mulp in HC3. destruct op; try discriminate Hcmp; destruct s'.
    + (* Add *) destruct (is_ptr t1 && negb (is_ptr t2)) eqn:C1; [|destruct (is_ptr t2 && negb (is_ptr t1)) eqn:C2]; mi; unfold scaled in HM.
      * match goal with E : ref_type_width W t1 = Some _ |- _ => rewrite E in HM; rename E into Ew end.
        destruct (okscale _) eqn:Ow in HM; [|discriminate]. apply Some_inj in HM. unfold reg_X, reg_Y in *. cbn [app] in Hp.
        ap r_mulp; [exact H|exact Hp|right; reflexivity|exact Ew|exact Ow|]. intros r1 m1 f1 H1 E1 Er1. apply (placed_app _ _ _ _ HW) in Hp as [_ Hp].
        ap r_alu; [exact H1|exact Hp|side|side|reflexivity|]. intros r2 H2 E2 _. fin K; eauto. rewrite E2, E1, Er1, Ex, Ey by lia. exact HM.
      * match goal with E : ref_type_width W t2 = Some _ |- _ => rewrite E in HM; rename E into Ew end.
        destruct (okscale _) eqn:Ow in HM; [|discriminate]. apply Some_inj in HM. unfold reg_X, reg_Y in *. cbn [app] in Hp.
        ap r_mulp; [exact H|exact Hp|left; reflexivity|exact Ew|exact Ow|]. intros r1 m1 f1 H1 E1 Er1. apply (placed_app _ _ _ _ HW) in Hp as [_ Hp].
        ap r_alu; [exact H1|exact Hp|side|side|reflexivity|]. intros r2 H2 E2 _. fin K; eauto. rewrite E2, E1, Er1, Ex, Ey by lia. exact HM.
      * apply Some_inj in HM. eapply Alu; [reflexivity|reflexivity|exact HM].
    + (* Sub *) destruct (is_ptr t1 && is_ptr t2) eqn:C1; [|destruct (is_ptr t1) eqn:C2; [|destruct (is_ptr t2) eqn:C3]]; mi; unfold scaled in HM.
      * match goal with E : ref_type_width W t1 = Some _ |- _ => rewrite E in HM; rename E into Ew end.
        destruct (okscale _) eqn:Ow in HM; [|discriminate]. apply Some_inj in HM. unfold reg_X, reg_Y in *. cbn [app] in Hp.
        ap r_alu; [exact H|exact Hp|side|side|reflexivity|]. intros r2 H2 E2 _. nx Hp. rewrite <- (app_nil_r (div_for_pointer_arith _ _)) in Hp.
        ap r_divp; [exact H2|exact Hp|exact Ow|]. intros r1 m1 f1 H1 E1. fin K; eauto. rewrite E1, E2, Ex, Ey by lia. exact HM.
      * match goal with E : ref_type_width W t1 = Some _ |- _ => rewrite E in HM; rename E into Ew end.
        destruct (okscale _) eqn:Ow in HM; [|discriminate]. apply Some_inj in HM. unfold reg_X, reg_Y in *. cbn [app] in Hp.
        ap r_mulp; [exact H|exact Hp|right; reflexivity|exact Ew|exact Ow|]. intros r1 m1 f1 H1 E1 Er1. apply (placed_app _ _ _ _ HW) in Hp as [_ Hp].
        ap r_alu; [exact H1|exact Hp|side|side|reflexivity|]. intros r2 H2 E2 _. fin K; eauto. rewrite E2, E1, Er1, Ex, Ey by lia. exact HM.
      * match goal with E : ref_type_width W t2 = Some _ |- _ => rewrite E in HM; rename E into Ew end.
        destruct (okscale _) eqn:Ow in HM; [|discriminate]. apply Some_inj in HM. unfold reg_X, reg_Y in *. cbn [app] in Hp.
        ap r_mulp; [exact H|exact Hp|left; reflexivity|exact Ew|exact Ow|]. intros r1 m1 f1 H1 E1 Er1. apply (placed_app _ _ _ _ HW) in Hp as [_ Hp].
        ap r_alu; [exact H1|exact Hp|side|side|reflexivity|]. intros r2 H2 E2 _. fin K; eauto. rewrite E2, E1, Er1, Ex, Ey by lia. exact HM.
      * apply Some_inj in HM. eapply Alu; [reflexivity|reflexivity|exact HM].
    + destruct (is_num t1 && is_num t2); mi. apply Some_inj in HM.
      ap r_imul; [exact H|exact Hp|side|side|]. intros r1 H1 E1 _. fin K; eauto. rewrite E1, Ex, Ey. exact HM.
    + destruct (is_num t1 && is_num t2); mi. rewrite <- (app_nil_r (A := hop) (if (_ : bool) then _ else _)) in Hp.
      eapply r_divs with (sg := is_sgn t1 && is_sgn t2) (rm := false) (q := wz); [exact H|exact Hp| |].
      * rewrite Ex, Ey. destruct (is_sgn t1 && is_sgn t2).
        -- destruct (Z.eqb_spec (sgn W wy) 0); [discriminate|]. cbn [negb andb] in HM.
           destruct (Z.leb_spec (- HALF W) (Z.quot (sgn W wx) (sgn W wy))), (Z.ltb_spec (Z.quot (sgn W wx) (sgn W wy)) (HALF W)); try discriminate.
           apply Some_inj in HM. auto.
        -- destruct (Z.eqb_spec wy 0); [discriminate|]. apply Some_inj in HM. auto.
      * intros r1 f1 H1 E1. fin K; eauto.
    + destruct (is_num t1 && is_num t2); mi. rewrite <- (app_nil_r (A := hop) (if (_ : bool) then _ else _)) in Hp.
      eapply r_divs with (sg := is_sgn t1 && is_sgn t2) (rm := true) (q := wz); [exact H|exact Hp| |].
      * rewrite Ex, Ey. destruct (is_sgn t1 && is_sgn t2).
        -- destruct (Z.eqb_spec (sgn W wy) 0); [discriminate|]. cbn [negb andb] in HM.
           destruct (Z.leb_spec (- HALF W) (Z.quot (sgn W wx) (sgn W wy))), (Z.ltb_spec (Z.quot (sgn W wx) (sgn W wy)) (HALF W)); try discriminate.
           apply Some_inj in HM. auto.
        -- destruct (Z.eqb_spec wy 0); [discriminate|]. apply Some_inj in HM. auto.
      * intros r1 f1 H1 E1. fin K; eauto.
    + destruct (is_num t1 && is_num t2); mi. apply Some_inj in HM. eapply Alu; [reflexivity|reflexivity|exact HM].
    + destruct (is_num t1 && is_num t2); mi. apply Some_inj in HM. eapply Alu; [reflexivity|reflexivity|exact HM].
    + destruct (is_num t1 && is_num t2); mi. apply Some_inj in HM. eapply Alu; [reflexivity|reflexivity|exact HM].
    + destruct (is_num t1 && is_num t2); mi. apply Some_inj in HM. rewrite <- (app_nil_r (h_shift _ _ _)) in Hp.
      eapply r_shifts; [exact H|exact Hp|]. intros r1 f1 H1 E1. fin K; eauto. rewrite E1, Ex, Ey. exact HM.
    + destruct (is_num t1 && is_num t2); mi. apply Some_inj in HM.
      destruct (is_sgn t1 && is_sgn t2); rewrite <- (app_nil_r (h_shift _ _ _)) in Hp;
        (eapply r_shifts; [exact H|exact Hp|]; intros r1 f1 H1 E1; fin K; eauto; rewrite E1, Ex, Ey; exact HM).
Qed.
End D.
End B.
