(** * Expressions compiled to shell arithmetic: one lemma per kind of expression *)
From Coq Require Import ZArith List Lia Bool.
From Verif Require Import Base Numerals Output Ast Parse ShArith ShExpr ShCSem ShEqs ShFacts ShFacts2 ShSyn ShSem ShMain.
Import ListNotations.
Open Scope Z_scope.

Section Main.
Variable N : Z.
Hypothesis HN : 32 <= N.
Variables (vn mn zn : nat -> name) (moff zsz : nat -> Z).
Notation cev := (cev moff zsz). Notation clv := (clv moff zsz).
Notation hst := (hst moff zsz). Notation hlv := (hlv moff zsz). Notation had := (had moff zsz).
Notation hz := (hz moff zsz). Notation zlv := (zlv moff zsz). Notation zad := (zad moff zsz).
Notation rv := (comp_rvalue_go vn mn zn). Notation lv := (comp_lvalue vn mn zn). Notation la := (comp_lvalue_address vn mn zn).
Notation nm := (nm vn). Notation cst := (cst mn zn moff zsz). Notation agree := (agree vn). Notation off := (off vn).
Notation Sem := (Sem vn mn zn moff zsz). Notation SynE := (SynE N). Notation Txt := (Txt N).
Notation Opd := (Opd N vn mn zn moff zsz). Notation Zpd := (Zpd N vn).
Hypothesis NK : names_ok vn mn zn moff zsz.
Notation PhA := (PhA N vn mn zn moff zsz). Notation PhB := (PhB N vn mn zn moff zsz). Notation PhL := (PhL N vn mn zn moff zsz).
Notation PhD := (PhD N vn mn zn moff zsz). Notation PhZ := (PhZ N vn mn zn moff zsz). Notation PhZL := (PhZL N vn mn zn moff zsz).
Notation PhZD := (PhZD N vn mn zn moff zsz). Notation Ph := (Ph N vn mn zn moff zsz).

Ltac ue := cbv beta iota.
Lemma noL e : okl e = false -> PhL e /\ PhZL e.
Proof. intros E. split; intros s; intros; congruence. Qed.
Lemma noD e : oka e = false -> PhD e /\ PhZD e.
Proof. intros E. split; intros s; intros; congruence. Qed.
Lemma Ph_plain e : okl e = false -> oka e = false -> PhA e -> PhB e -> PhZ e -> Ph e.
Proof. intros H1 H2 A B Z. destruct (noL e H1), (noD e H2). repeat split; auto. Qed.

Lemma zpd_ret c lev m g (f : den) : Txt c lev m g g f -> Zpd c lev m g.
Proof. intros T. exists g, f. split; [auto|apply off_refl]. Qed.
Lemma mF e o g0 g1 c f : Txt c 0 False g0 g1 f -> Txt c 0 (plev e o = 0%nat -> minus e = true) g0 g1 f.
Proof. apply txt_m. tauto. Qed.

(** ** Constants *)
Lemma lit_range n : (0 <=? n) && (n <? 2 ^ 31) = true -> 0 <= n < 2 ^ 31.
Proof. rewrite andb_true_iff, Z.leb_le, Z.ltb_lt. auto. Qed.
Lemma wrap_int_dec n : 0 <= n < 2 ^ 31 -> wrap_int n = chs (decimal n).
Proof. intros H. unfold wrap_int. rewrite putint_decimal; [reflexivity|]. unfold int_range. lia. Qed.
Lemma u32_small n : 0 <= n < 2 ^ 31 -> u32 n = n.
Proof. intros H. unfold u32. rewrite Z.mod_small; lia. Qed.
Lemma hex_ok n : 0 <= n < 2 ^ 31 -> exists l, wrap_hex n = chs l /\ forallb is_word l = true /\ word_tok l (TNum n).
Proof.
  intros H. destruct (puthex_ok 9 n) as (ds & E & D & _); [lia|rewrite u32_small; lia|].
  rewrite u32_small in D by auto. exists ([48; 120] ++ ds). split; [unfold wrap_hex; rewrite E; reflexivity|].
  split.
  - cbn [app forallb]. rewrite (numeral_word _ _ _ D). reflexivity.
  - apply w_hex; auto.
Qed.
Lemma oct_ok n : 0 <= n < 2 ^ 31 -> exists l, wrap_oct n = chs l /\ forallb is_word l = true /\ word_tok l (TNum n).
Proof.
  intros H. destruct (putoct_ok 12 n) as (ds & E & D & _); [lia|rewrite u32_small; lia|].
  rewrite u32_small in D by auto. exists ([48] ++ ds). split; [unfold wrap_oct; rewrite E; reflexivity|].
  split.
  - cbn [app forallb]. rewrite (numeral_word _ _ _ D). reflexivity.
  - apply w_oct; auto.
Qed.

(* an expression with a constant value and a fixed text *)
Lemma ph_const e (f : den) (v : Z) :
  okl e = false -> oka e = false ->
  (okx e = true -> (forall o g, Txt (rv e true o) 0 False g g f) /\ (forall g, cst g -> f g = Some (v, g))) ->
  (forall o, plev e o = 0%nat) ->
  (forall s, cev e s = Some (v, s, [], [])) -> (forall s, hst e s = Some ([], [])) -> (forall s, hz e s = Some []) ->
  (PhA e -> PhB e) -> Ph e.
Proof.
  intros Hl Ha T Pl Ec Eh Ez HB.
  assert (A : PhA e).
  { intros o s v' s' R W H V g0 Ok E1 E2 C Ag. rewrite Ec in E1. rewrite Eh in E2. inversion E1; inversion E2; subst.
    destruct (T Ok) as [T1 T2]. rewrite Pl. eapply opd_ret; [|exact T2]. eapply txt_m; [|apply T1]. tauto. }
  apply Ph_plain; auto.
  intros o s H g0 Ok E C Ag. destruct (T Ok) as [T1 T2]. rewrite Pl. eapply zpd_ret. eapply txt_m; [|apply T1]. tauto.
Qed.
Lemma ph_int n : Ph (XInt n).
Proof.
  apply (ph_const _ (fun s => Some (n, s)) n); try reflexivity; auto.
  - intros Ok. rewrite okx_eq in Ok. apply lit_range in Ok. split; [|auto].
    intros o g. rewrite comp_rvalue_go_eq. ue. rewrite wrap_int_dec by auto.
    apply txt_num; [apply decimal_word; lia|apply decimal_tok; lia].
  - intros _ o s v s' R W H V g0 Ok E1 E2 C Ag. inversion E1; subst. exists g0.
    rewrite okx_eq in Ok. apply lit_range in Ok. split.
    + rewrite comp_rvalue_go_eq. ue. rewrite wrap_int_dec by auto. apply exp_chs.
    + split; [intros l []|apply off_refl].
Qed.
Lemma ph_hex n : Ph (XHex n).
Proof.
  apply (ph_const _ (fun s => Some (n, s)) n); try reflexivity; auto.
  - intros Ok. rewrite okx_eq in Ok. apply lit_range in Ok. split; [|auto].
    intros o g. rewrite comp_rvalue_go_eq. ue. destruct (hex_ok n Ok) as (l & -> & W & T). apply txt_num; auto.
  - apply B_of_A; auto; intros; try reflexivity. cbn; lia.
Qed.
Lemma ph_oct n : Ph (XOct n).
Proof.
  apply (ph_const _ (fun s => Some (n, s)) n); try reflexivity; auto.
  - intros Ok. rewrite okx_eq in Ok. apply lit_range in Ok. split; [|auto].
    intros o g. rewrite comp_rvalue_go_eq. ue. destruct (oct_ok n Ok) as (l & -> & W & T). apply txt_num; auto.
  - apply B_of_A; auto; intros; try reflexivity. cbn; lia.
Qed.
Lemma exp_pv n g : exp N [Pv n] g (decimal (g n)) g.
Proof. rewrite <- (app_nil_r (decimal (g n))). apply e_pv, e_nil. Qed.
Lemma ph_chr c : Ph (XChr c).
Proof.
  apply (ph_const _ (fun s => Some (s (character_ident c), s)) c); try reflexivity.
  - intros Ok. rewrite okx_eq in Ok. split.
    + intros o g. rewrite comp_rvalue_go_eq. ue. apply txt_name; [apply chr_ident; auto|apply exp_chs].
    + intros g C. rewrite (C _ _ (cn_chr mn zn moff zsz c Ok)). reflexivity.
  - intros _ o s v s' R W H V g0 Ok E1 E2 C Ag. inversion E1; subst. exists g0. rewrite okx_eq in Ok. split.
    + rewrite comp_rvalue_go_eq. ue. rewrite <- (C _ _ (cn_chr mn zn moff zsz v Ok)) at 2. apply exp_pv.
    + split; [intros l []|apply off_refl].
Qed.
Lemma ph_size1 : Ph XSize1.
Proof.
  apply (ph_const _ (fun s => Some (1, s)) 1); try reflexivity; auto.
  - intros Ok. split; [|auto].
    intros o g. rewrite comp_rvalue_go_eq. ue. rewrite wrap_int_dec by lia.
    apply txt_num; [apply decimal_word; lia|apply decimal_tok; lia].
  - intros _ o s v s' R W H V g0 Ok E1 E2 C Ag. inversion E1; subst. exists g0. split.
    + rewrite comp_rvalue_go_eq. ue. rewrite wrap_int_dec by lia. apply exp_chs.
    + split; [intros l []|apply off_refl].
Qed.
Lemma ph_sizeS k : Ph (XSizeS k).
Proof.
  apply (ph_const _ (fun s => Some (s (zn k), s)) (zsz k)); try reflexivity.
  - intros Ok. split.
    + intros o g. rewrite comp_rvalue_go_eq. ue. apply txt_name; [apply (nk_zi _ _ _ _ _ NK)|apply exp_chs].
    + intros g C. rewrite (C _ _ (cn_siz mn zn moff zsz k)). reflexivity.
  - apply B_of_A; auto; intros; try reflexivity. cbn; lia.
Qed.
Lemma ph_var x : Ph (XVar x).
Proof.
  assert (T : forall o g, Txt (rv (XVar x) true o) 0 False g g (fun s => Some (s (vn x), s))).
  { intros o g. rewrite comp_rvalue_go_eq. ue. apply txt_name; [apply (nk_vi _ _ _ _ _ NK)|apply exp_chs]. }
  repeat split.
  - intros o s v s' R W H V g0 Ok E1 E2 C Ag. rewrite cev_eq in E1. rewrite hst_eq in E2. inversion E1; inversion E2; subst.
    exists g0, (fun s => Some (s (vn x), s)). split; [apply mF, T|]. split; [apply off_refl|]. split; [apply incl_refl|].
    intros g2 C2 HR HV. exists g2. rewrite <- (HR (LV x)); [|left; reflexivity|auto].
    split; [reflexivity|]. split; [intros l []|apply off_refl].
  - intros o s v s' R W H V g0 Ok E1 E2 C Ag. rewrite cev_eq in E1. inversion E1; subst. exists g0. split.
    + rewrite comp_rvalue_go_eq. ue. rewrite <- (Ag (LV x)) by (left; reflexivity). apply exp_pv.
    + split; [intros l []|apply off_refl].
  - intros s l s1 R W H V g0 Ok E1 E2 C Ag. rewrite clv_eq in E1. rewrite hlv_eq in E2. inversion E1; inversion E2; subst.
    exists g0. split; [rewrite comp_lvalue_eq; apply exp_chs|]. split; [apply (nk_vi _ _ _ _ _ NK)|].
    split; [reflexivity|]. split; [intros l []|apply off_refl].
  - apply noD. reflexivity.
  - intros o s H g0 Ok E C Ag. eapply zpd_ret. apply mF, T.
  - intros s H g0 Ok E C Ag. exists g0, (vn x). split; [rewrite comp_lvalue_eq; apply exp_chs|].
    split; [apply (nk_vi _ _ _ _ _ NK)|apply off_refl].
  - apply (proj2 (noD (XVar x) eq_refl)).
Qed.

(** ** Parentheses, unary plus, casts *)
Lemma ph_par e : Ph e -> Ph (XPar e).
Proof.
  intros (A & B & L & D & Z & ZL & ZD). repeat split; try (apply noL; reflexivity).
  - intros o s v s' R W H V g0 Ok E1 E2. rewrite comp_rvalue_go_eq. ue. apply (A o); auto.
  - intros o s v s' R W H V g0 Ok E1 E2. rewrite comp_rvalue_go_eq. ue. apply (B o s v s' R W H V); auto.
  - intros s a s1 R W H V g0 Ok E1 E2 C Ag. rewrite comp_lvalue_address_eq. ue. eapply D; eauto.
  - intros o s H g0 Ok E. rewrite comp_rvalue_go_eq. ue. apply (Z o s H); auto.
  - intros s H g0 Ok E C Ag. rewrite comp_lvalue_address_eq. ue. eapply ZD; eauto.
Qed.
Lemma ph_plus e : Ph e -> Ph (XPlus e).
Proof.
  intros (A & B & L & D & Z & ZL & ZD). apply Ph_plain; try reflexivity.
  - intros o s v s' R W H V g0 Ok E1 E2. rewrite comp_rvalue_go_eq. ue. apply (A o); auto.
  - intros o s v s' R W H V g0 Ok E1 E2. rewrite comp_rvalue_go_eq. ue. apply (B o s v s' R W H V); auto.
  - intros o s H g0 Ok E. rewrite comp_rvalue_go_eq. ue. apply (Z o s H); auto.
Qed.
Lemma ph_cast e : Ph e -> Ph (XCast e).
Proof.
  intros (A & B & L & D & Z & ZL & ZD). apply Ph_plain; try reflexivity.
  - intros o s v s' R W H V g0 Ok E1 E2. rewrite comp_rvalue_go_eq. ue. apply (A CAST); auto.
  - intros o s v s' R W H V g0 Ok E1 E2. rewrite comp_rvalue_go_eq. ue. apply (B CAST s v s' R W H V); auto.
  - intros o s H g0 Ok E. rewrite comp_rvalue_go_eq. ue. apply (Z CAST s H); auto.
Qed.

(** ** Memory words *)
Lemma load_inv rl v s' R W : load rl = Some (v, s', R, W) ->
  exists l R0, rl = Some (l, s', R0, W) /\ ~ In l W /\ v = s' l /\ R = l :: R0.
Proof.
  unfold load. destruct rl as [[[[l s1] R1] W1]|]; [|discriminate]. destruct (mem l W1) eqn:M; [discriminate|].
  intros E. inversion E; subst. exists l, R1. repeat split; auto using mem_false.
Qed.
Lemma at_inv ra l s' R W : at_addr ra = Some (l, s', R, W) -> exists a, l = LC a /\ 0 <= a /\ ra = Some (a, s', R, W).
Proof.
  unfold at_addr. destruct ra as [[[[a s1] R1] W1]|]; [|discriminate]. destruct (Z.leb_spec 0 a); [|discriminate].
  intros E. inversion E; subst. eauto.
Qed.
Lemma hall_inv r h H V : hall r h = Some (H, V) -> exists v s R H0 V0, r = Some (v, s, R, V) /\ h = Some (H0, V0) /\ H = R ++ H0.
Proof.
  unfold hall. destruct r as [[[[v s] R] W]|]; [|discriminate]. destruct h as [[H0 V0]|]; [|discriminate].
  intros E. inversion E; subst. eauto 8.
Qed.
Lemma pure_inv r h H : pure r h = Some H -> exists a s R H0 V0, r = Some (a, s, R, []) /\ h = Some (H0, V0) /\ H = R ++ H0 /\ 0 <= a.
Proof.
  unfold pure. destruct r as [[[[v s] R] [|w W]]|]; try discriminate. destruct h as [[H0 V0]|]; [|discriminate].
  destruct (Z.leb_spec 0 v); [|discriminate]. intros E. inversion E; subst. eauto 10.
Qed.
(* from the run of the address text to the four uses of a memory word *)
Definition Runs (c : list item) (r : store -> res) (h : store -> fp) : Prop :=
  forall s a s1 R W H V g0, r s = Some (a, s1, R, W) -> h s = Some (H, V) -> cst g0 -> agree (R ++ H) g0 s ->
  exists g3, exp N c g0 (decimal a) g3 /\ agree W g3 s1 /\ off W g0 g3.
Lemma exp_cell c g0 d g3 : exp N c g0 d g3 -> exp N (chs [95] ++ c) g0 (95 :: d) g3.
Proof. intros H. cbn. apply e_ch. exact H. Qed.
Lemma ph_cell e c1 c2 r h :
  (forall o, rv e true o = chs [95] ++ c1) -> (forall o, rv e false o = [Ar (chs [95] ++ c1)]) -> lv e = chs [95] ++ c2 ->
  (forall o, plev e o = 0%nat) ->
  (forall s, cev e s = load (at_addr (r s))) -> (forall s, clv e s = at_addr (r s)) ->
  (forall s, hst e s = hall (r s) (h s)) -> (forall s, hlv e s = hall (r s) (h s)) ->
  (forall s, hz e s = pure (r s) (h s)) -> (forall s, zlv e s = pure (r s) (h s)) ->
  (okx e = true -> Runs c1 r h) -> (okl e = true -> Runs c2 r h) ->
  PhD e -> PhZD e -> Ph e.
Proof.
  intros Hr Hb Hl Pl Ec Elv Eh Ehl Ez Ezl R1 R2 D ZD.
  assert (A : PhA e).
  { intros o s v s' R W H V g0 Ok E1 E2 C Ag. rewrite Ec in E1. rewrite Eh in E2.
    apply load_inv in E1 as (l & R0 & E1 & Nl & -> & ->). apply at_inv in E1 as (a & -> & Ha & E1).
    apply hall_inv in E2 as (a' & s1 & R' & H0 & V0 & E2 & E3 & ->). rewrite E1 in E2. inversion E2; subst a' s1 R' V.
    destruct (R1 Ok s a s' R0 W H0 V0 g0 E1 E3 C Ag) as (g3 & X & A3 & O3).
    rewrite Pl, Hr. eapply opd_cell; eauto.
    - apply exp_cell. exact X.
    - pose proof (proj2 (cev_clv_ok moff zsz e) s (LC a) s' R0 W) as S. apply S. rewrite Elv. unfold at_addr. rewrite E1.
      destruct (Z.leb_spec 0 a); [reflexivity|lia]. }
  repeat split; auto.
  - apply B_of_A; auto; intros.
    + rewrite Pl. lia.
    + rewrite Hb, Hr. reflexivity.
  - intros s l s1 R W H V g0 Ok E1 E2 C Ag. rewrite Elv in E1. rewrite Ehl in E2.
    apply at_inv in E1 as (a & -> & Ha & E1).
    apply hall_inv in E2 as (a' & s2 & R' & H0 & V0 & E2 & E3 & ->). rewrite E1 in E2. inversion E2; subst a' s2 R' V.
    destruct (R2 Ok s a s1 R W H0 V0 g0 E1 E3 C Ag) as (g3 & X & A3 & O3).
    exists g3. rewrite Hl. split; [apply exp_cell, X|]. split; [apply nm_cell_ident; auto|]. auto.
  - intros o s H g0 Ok E C Ag. rewrite Ez in E. apply pure_inv in E as (a & s1 & R & H0 & V0 & E1 & E2 & -> & Ha).
    destruct (R1 Ok s a s1 R [] H0 V0 g0 E1 E2 C Ag) as (g3 & X & A3 & O3).
    exists g3, (fun s => Some (s (nm (LC a)), s)). split; [|auto]. rewrite Pl, Hr.
    eapply txt_m; [|apply txt_name; [apply nm_cell_ident; exact Ha|apply exp_cell, X]]. tauto.
  - intros s H g0 Ok E C Ag. rewrite Ezl in E. apply pure_inv in E as (a & s1 & R & H0 & V0 & E1 & E2 & -> & Ha).
    destruct (R2 Ok s a s1 R [] H0 V0 g0 E1 E2 C Ag) as (g3 & X & A3 & O3).
    exists g3, (nm (LC a)). rewrite Hl. split; [apply exp_cell, X|]. split; [apply nm_cell_ident; auto|auto].
Qed.
Lemma ph_deref p : Ph p -> Ph (XDeref p).
Proof.
  intros (A & B & L & D & Z & ZL & ZD).
  assert (U : forall o, okx p = true -> Runs (rv p false o) (cev p) (hst p)).
  { intros o Ok s a s1 R W H V g0 E1 E2 C Ag. eapply B; eauto. }
  apply (ph_cell (XDeref p) (rv p false STAR) (rv p false 0) (cev p) (hst p)); try reflexivity; auto.
  - intros Ok. rewrite okl_eq in Ok. apply andb_true_iff in Ok as [Ok _]. apply U; auto.
  - apply noD. reflexivity.
  - apply (proj2 (noD (XDeref p) eq_refl)).
Qed.
Definition pair_h (a b : xe) (s : store) : fp :=
  match cev a s with Some (_, sa, Ra, Wa) => hseq Ra Wa (hst a s) (hst b sa) | None => None end.
Lemma run_pair a b o : PhA a -> PhA b -> okx a = true -> okx b = true -> (plev a o <= 3)%nat -> (plev b o <= 3)%nat ->
  Runs [Ar (rv a true o ++ chs [32; 43; 32] ++ rv b true o)]
    (fun s => cpair (cev a s) (cev b) (carith PLUS)) (pair_h a b).
Proof.
  intros HA HB Oa Ob La Lb s v s1 R W H V g0 E1 E2 C Ag. unfold pair_h in E2. cbn beta in *.
  destruct (cev a s) as [[[[va sa] Ra] Wa]|] eqn:Ea; [|discriminate].
  apply agree_app in Ag as [AR AH].
  destruct (opd_run N vn mn zn moff zsz NK (rv a true o ++ chs [32; 43; 32] ++ rv b true o) 3 True R W V s s1 v g0) as (g3 & X & A3 & O3); auto; try lia.
  - eapply adr_pair; eauto. rewrite Ea. exact E1.
  - exists g3. split; [apply ari_base, X|auto].
Qed.
Lemma plev3 e o : okx e = true -> o = PLUS \/ o = ARROW -> (plev e o <= 3)%nat.
Proof.
  intros Ok [-> | ->].
  - destruct (plev_under e PLUS) as [E | [[_ E] | [_ [E _]]]]; auto; try discriminate; rewrite E; vm_compute; lia.
  - apply plev_not_assoc; auto; discriminate.
Qed.
Lemma zpd_m c lev (m m' : Prop) g : (m -> m') -> Zpd c lev m g -> Zpd c lev m' g.
Proof. intros M (g1 & f & T & O). exists g1, f. split; [eapply txt_m; eauto|auto]. Qed.
Lemma oapp_inv a b H : oapp a b = Some H -> exists A B, a = Some A /\ b = Some B /\ H = A ++ B.
Proof. destruct a, b; try discriminate. cbn. intros E. inversion E; subst. eauto. Qed.
Lemma agree_off H g g' s : off [] g g' -> agree H g s -> agree H g' s.
Proof. intros O A l Hl. rewrite (off_nm _ _ _ _ _ NK _ _ _ _ O); [apply A; auto|intros []]. Qed.
(* two operands, not evaluated *)
Lemma z_two ca la_ ma cb lb (mb : Prop) Hb s g0 :
  Zpd ca la_ ma g0 -> (forall g1, cst g1 -> agree Hb g1 s -> Zpd cb lb mb g1) -> cst g0 -> agree Hb g0 s ->
  exists g1 g2 fa fb, Txt ca la_ ma g0 g1 fa /\ Txt cb lb mb g1 g2 fb /\ off [] g0 g2 /\ off [] g0 g1.
Proof.
  intros (g1 & fa & Ta & Oa) Hcb C A.
  destruct (Hcb g1) as (g2 & fb & Tb & Ob); [eapply off_cst; eauto|eapply agree_off; eauto|].
  exists g1, g2, fa, fb. repeat split; auto. eapply off_nil; eauto.
Qed.
Lemma ph_idx a b : Ph a -> Ph b -> Ph (XIdx a b).
Proof.
  intros (Aa & Ba & La & Da & Za & ZLa & ZDa) (Ab & Bb & Lb & Db & Zb & ZLb & ZDb).
  assert (Ok2 : oka (XIdx a b) = true -> okx a = true /\ okx b = true /\ (plev a 0 <= 3)%nat /\ (plev b 0 <= 3)%nat).
  { intros Ok. rewrite oka_eq in Ok. rewrite !andb_true_iff in Ok. destruct Ok as [[[[[O1 O2] O3] O4] _] _].
    repeat split; auto using addlike_lev. }
  apply (ph_cell (XIdx a b) [Ar (rv a true PLUS ++ chs [32; 43; 32] ++ rv b true PLUS)]
     [Ar (rv a true 0 ++ chs [32; 43; 32] ++ rv b true 0)]
     (fun s => cpair (cev a s) (cev b) (carith PLUS)) (pair_h a b)); try reflexivity.
  - intros s. rewrite hst_eq. ue. unfold pair_h. destruct (cev a s) as [[[[va sa] Ra] Wa]|]; reflexivity.
  - intros s. rewrite hlv_eq. ue. unfold pair_h. destruct (cev a s) as [[[[va sa] Ra] Wa]|]; reflexivity.
  - intros s. rewrite hz_eq. ue. unfold pair_h. destruct (cev a s) as [[[[va sa] Ra] Wa]|]; reflexivity.
  - intros s. rewrite zlv_eq. ue. unfold pair_h. destruct (cev a s) as [[[[va sa] Ra] Wa]|]; reflexivity.
  - intros Ok. rewrite okx_eq in Ok. apply andb_true_iff in Ok as [O1 O2]. apply run_pair; auto using plev3.
  - intros Ok. destruct (Ok2 Ok) as (O1 & O2 & P1 & P2). apply run_pair; auto.
  - intros s v s1 R W H V g0 Ok E1 E2 C Ag. destruct (Ok2 Ok) as (O1 & O2 & P1 & P2).
    rewrite clv_eq in E1. apply at_inv in E1 as (v' & E & Hv & E1). inversion E; subst v'.
    rewrite had_eq in E2. cbv beta iota in E2. destruct (cev a s) as [[[[va sa] Ra] Wa]|] eqn:Ea; [|discriminate].
    rewrite comp_lvalue_address_eq. ue. eapply adr_pair; eauto. rewrite Ea. exact E1.
  - intros s H g0 Ok E C Ag. destruct (Ok2 Ok) as (O1 & O2 & P1 & P2).
    rewrite zad_eq in E. apply oapp_inv in E as (Ha & Hb & E1 & E2 & ->). apply agree_app in Ag as [A1 A2].
    destruct (z_two (rv a true 0) (plev a 0) (plev a 0 = 0%nat -> minus a = true) (rv b true 0) (plev b 0) (plev b 0 = 0%nat -> minus b = true) Hb s g0)
      as (g1 & g2 & fa & fb & T1 & T2 & O & _); auto.
    + eapply Za; eauto.
    + intros g1 C1 A1'. eapply Zb; eauto.
    + exists g2, (dbin N PLUS fa fb). split; [|auto]. rewrite comp_lvalue_address_eq. ue.
      change (chs [32; 43; 32]) with (op_to_str PLUS).
      eapply txt_m; [|refine (txt_bin N HN PLUS _ _ _ _ _ _ _ _ _ _ _ _ _ _ T1 T2); [reflexivity|exact P1|exact P2]]. auto.
Qed.
Lemma ph_mem a k : Ph a -> Ph (XMem a k).
Proof.
  intros (A & B & L & D & Z & ZL & ZD).
  assert (U : forall o, okx a = true -> (plev a o <= 3)%nat ->
     Runs [Ar (rv a true o ++ chs [32; 43; 32] ++ chs (mn k))] (fun s => cmap (cev a s) (fun v => carith PLUS v (moff k))) (hst a)).
  { intros o Ok Pl s v s1 R W H V g0 E1 E2 C Ag. cbn beta in *. unfold cmap in E1.
    destruct (cev a s) as [[[[va sa] Ra] Wa]|] eqn:Ea; [|discriminate].
    destruct (carith PLUS va (moff k)) eqn:Ev; [|discriminate]. inversion E1; subst.
    apply agree_app in Ag as [AR AH].
    destruct (opd_run N vn mn zn moff zsz NK (rv a true o ++ chs [32; 43; 32] ++ chs (mn k)) 3 True R W V s s1 v g0) as (g3 & X & A3 & O3); auto; try lia.
    - eapply adr_mem; eauto.
    - exists g3. split; [apply ari_base, X|auto]. }
  assert (Ok2 : oka (XMem a k) = true -> okx a = true /\ (plev a 0 <= 3)%nat).
  { intros Ok. rewrite oka_eq in Ok. rewrite !andb_true_iff in Ok. destruct Ok as [[O1 O2] _].
    repeat split; auto using addlike_lev. }
  assert (HH : forall s, hall (cmap (cev a s) (fun v => carith PLUS v (moff k))) (hst a s) = hall (cev a s) (hst a s) \/
     cmap (cev a s) (fun v => carith PLUS v (moff k)) = None).
  { intros s. unfold cmap, hall. destruct (cev a s) as [[[[va sa] Ra] Wa]|]; auto. destruct (carith PLUS va (moff k)); auto. }
  (* hst of a member does not depend on the sum being defined; cev does *)
  assert (AA : PhA (XMem a k)).
  { intros o s v s' R W H V g0 Ok E1 E2 C Ag. rewrite cev_eq in E1. rewrite hst_eq in E2. cbv beta iota in E1, E2.
    apply load_inv in E1 as (l & R0 & E1 & Nl & -> & ->). apply at_inv in E1 as (v & -> & Ha & E1).
    destruct (HH s) as [Hs | Hs]; [|rewrite Hs in E1; discriminate]. rewrite <- Hs in E2.
    apply hall_inv in E2 as (a' & s1 & R' & H0 & V0 & E2 & E3 & ->). rewrite E1 in E2. inversion E2; subst a' s1 R' V.
    rewrite okx_eq in Ok.
    destruct (U ARROW Ok (plev3 a ARROW Ok (or_intror eq_refl)) s v s' R0 W H0 V0 g0 E1 E3 C Ag) as (g3 & X & A3 & O3).
    rewrite comp_rvalue_go_eq. ue. cbn [plev]. eapply opd_cell; eauto.
    - apply exp_cell. exact X.
    - pose proof (proj2 (cev_clv_ok moff zsz (XMem a k)) s (LC v) s' R0 W) as S. apply S. rewrite clv_eq. ue. unfold at_addr. rewrite E1.
      destruct (Z.leb_spec 0 v); [reflexivity|lia]. }
  repeat split; auto.
  - apply B_of_A; auto; intros; try reflexivity. cbn; lia.
  - intros s l s1 R W H V g0 Ok E1 E2 C Ag. rewrite clv_eq in E1. rewrite hlv_eq in E2. cbv beta iota in E1, E2.
    apply at_inv in E1 as (v & -> & Ha & E1).
    destruct (HH s) as [Hs | Hs]; [|rewrite Hs in E1; discriminate]. rewrite <- Hs in E2.
    apply hall_inv in E2 as (a' & s2 & R' & H0 & V0 & E2 & E3 & ->). rewrite E1 in E2. inversion E2; subst a' s2 R' V.
    destruct (Ok2 Ok) as [O1 O2].
    destruct (U 0 O1 O2 s v s1 R W H0 V0 g0 E1 E3 C Ag) as (g3 & X & A3 & O3).
    exists g3. rewrite comp_lvalue_eq. ue. split; [apply exp_cell, X|]. split; [apply nm_cell_ident; auto|]. auto.
  - intros s v s1 R W H V g0 Ok E1 E2 C Ag. destruct (Ok2 Ok) as (O1 & P1).
    rewrite clv_eq in E1. apply at_inv in E1 as (v' & E & Hv & E1). inversion E; subst v'.
    rewrite had_eq in E2. cbv beta iota in E2. unfold cmap in E1.
    destruct (cev a s) as [[[[va sa] Ra] Wa]|] eqn:Ea; [|discriminate].
    destruct (carith PLUS va (moff k)) eqn:Ev; [|discriminate]. inversion E1; subst.
    rewrite comp_lvalue_address_eq. ue. eapply adr_mem; eauto.
  - intros o s H g0 Ok E C Ag. rewrite hz_eq in E. cbv beta iota in E.
    apply pure_inv in E as (v & s1 & R & H0 & V0 & E1 & E2 & -> & Ha). rewrite okx_eq in Ok.
    destruct (U ARROW Ok (plev3 a ARROW Ok (or_intror eq_refl)) s v s1 R [] H0 V0 g0 E1 E2 C Ag) as (g3 & X & A3 & O3).
    exists g3, (fun s => Some (s (nm (LC v)), s)). split; [|auto]. rewrite comp_rvalue_go_eq. ue. cbn [plev].
    eapply txt_m; [|apply txt_name; [apply nm_cell_ident; exact Ha|apply exp_cell, X]]. tauto.
  - intros s H g0 Ok E C Ag. rewrite zlv_eq in E. cbv beta iota in E.
    apply pure_inv in E as (v & s1 & R & H0 & V0 & E1 & E2 & -> & Ha). destruct (Ok2 Ok) as [O1 O2].
    destruct (U 0 O1 O2 s v s1 R [] H0 V0 g0 E1 E2 C Ag) as (g3 & X & A3 & O3).
    exists g3, (nm (LC v)). rewrite comp_lvalue_eq. ue. split; [apply exp_cell, X|]. split; [apply nm_cell_ident; auto|auto].
  - intros s H g0 Ok E C Ag. destruct (Ok2 Ok) as (O1 & P1). rewrite zad_eq in E. cbv beta iota in E.
    destruct (Z 0 s H g0 O1 E C Ag) as (g1 & f & T & O).
    exists g1, (dbin N PLUS f (fun g => Some (g (mn k), g))). split; [|auto]. rewrite comp_lvalue_address_eq. ue.
    change (chs [32; 43; 32]) with (op_to_str PLUS).
    assert (T2 : Txt (chs (mn k)) 0 False g1 g1 (fun g => Some (g (mn k), g))).
    { apply txt_name; [apply (nk_mi _ _ _ _ _ NK)|apply exp_chs]. }
    eapply txt_m; [|refine (txt_bin N HN PLUS _ _ _ _ _ _ _ _ _ _ _ _ _ _ T T2); [reflexivity|exact P1|lia]]. auto.
Qed.
End Main.
