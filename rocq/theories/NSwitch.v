(** * Switch statements *)
From Coq Require Import ZArith List Lia Bool.
From Verif Require Import Base Asm AsmProof X86 X86Proof X86Sem NMach NPtr CLang NGen NSupp NBin NRun NBop NEqs NStat NJudge NExpr NExpr2 NExpr3 NExpr4 NStat2 NStmt.
Import ListNotations.
Open Scope Z_scope.

Section X.
Variables (W slim STOP cb GB : Z) (bytes : list Z) (lab : Z -> option Z).
Variables (funs : cdecls) (gvars : list (Z * (Z * ty))) (glo : list gbnd) (F : mst -> Prop) (mp : list Z).
Hypothesis HW : W = 4 \/ W = 8.
Hypothesis Hslim : 0 < slim.
Hypothesis Hstop : STOP < MOD W.
Hypothesis Hdis : STOP <= cb \/ cb + zlen bytes <= slim.
Hypothesis Hcb : 0 <= cb /\ cb + zlen bytes <= MOD W.
Hypothesis HF : decl_ok funs glo.
Set Default Proof Using "HW Hslim Hstop Hdis Hcb HF gvars".
Notation placed := (placed W cb bytes lab).
Notation hsize := (hsize W).
Notation wp := (wp W slim).
Notation MOD := (MOD W).
Notation St := (St W slim STOP cb GB bytes).
Notation EX := (EX W slim STOP cb GB bytes lab funs gvars glo F mp).
Notation LX := (LX W slim STOP cb GB bytes lab funs gvars glo F mp).
Notation AX := (AX W slim STOP cb GB bytes lab funs gvars glo F mp).
Notation CX := (CX W slim STOP cb GB bytes lab funs gvars glo F mp).
Notation VR := (VR W GB glo).
Notation vok := (vok W funs).
Ltac ap R ::= eapply R; [exact HW|exact Hslim|exact Hstop|exact Hdis|..].
Ltac apx R ::= eapply R; [exact HW|exact Hslim|exact Hstop|exact Hdis|exact Hcb|exact HF|..].
Notation cs := (cs W funs gvars).
Notation cw := (cw W funs gvars).
Notation sep := (sep slim cb bytes).
Notation FR := (FR slim).
Notation ss := (ss W funs).
Notation sw := (sw W funs).
Notation cgs := (codegen_statement W glo).
Notation cgw := (codegen_swl W glo).
Notation Xt := (Xt W slim cb GB bytes).
Notation XK := (XK W slim cb GB bytes lab F mp).
Notation SX := (SX W slim STOP cb GB bytes lab funs gvars glo F mp).
Ltac plc Hp Hp1 := apply (placed_app _ _ _ _ HW) in Hp as [Hp1 Hp].
Lemma lab1' p h l k m : placed p (NMach.HC h :: k) -> codeok cb bytes m -> hlabel h = Some l -> exists a, lab l = Some a.
Proof. intros Hp Hm Hl. eapply lab_of; eauto. Qed.

(** Two values of a switch type are the same if their machine words are. *)
Lemma word_inj n sg v z : wfty W (TInt n sg) = true -> inr_ W (promote (TInt n sg)) v -> inr_ W (promote (TInt n sg)) z -> v mod MOD = z mod MOD -> v = z.
Proof.
  intros Hw Hv Hz E. pose proof (wf_int W HW _ _ Hw) as Hi.
  assert (exists N s2, promote (TInt n sg) = TInt N s2 /\ 4 <= N <= W) as (N & s2 & Ep & HN).
  { cbn [promote]. destruct (Z.ltb_spec n 4); [exists 4, true|exists n, sg]; split; try reflexivity; destruct HW; subst W; unfold isz in Hi; lia. }
  rewrite Ep in *. cbn [inr_] in Hv, Hz. unfold X86Sem.MOD in E.
  assert (P : 2 ^ (8 * N) <= 2 ^ (8 * W)) by (apply Z.pow_le_mono_r; lia).
  assert (P2 : 2 ^ (8 * N) = 2 * 2 ^ (8 * N - 1)) by (rewrite <- Z.pow_succ_r by lia; f_equal; lia).
  pose proof (Z.div_mod v (2 ^ (8 * W)) ltac:(lia)). pose proof (Z.div_mod z (2 ^ (8 * W)) ltac:(lia)).
  assert (D : v - z = 2 ^ (8 * W) * (v / 2 ^ (8 * W) - z / 2 ^ (8 * W))) by lia.
  assert (- 2 ^ (8 * W) < v - z < 2 ^ (8 * W)) by (destruct s2; lia).
  assert (v / 2 ^ (8 * W) - z / 2 ^ (8 * W) = 0) by nia. nia.
Qed.
Lemma case_ce E z s (Q : Z -> cst -> Prop) : - 2 ^ 31 < z < 2 ^ 31 -> Q z s -> ce W funs gvars 2 E (case_expr z) s Q.
Proof.
  intros Hz HQ. unfold case_expr. rewrite ce_eq. destruct (Z.ltb_spec z 0); unfold ce_body; cbv beta iota zeta; [|split; [lia|exact HQ]].
  cbn [ctype]. unfold tint. rewrite ce_eq. unfold ce_body; cbv beta iota zeta. split; [lia|]. unfold oq, fit.
  assert (Ei : inrb W (promote (TInt 4 true)) (- - z) = true).
  { cbn [promote]. change (4 <? 4) with false. cbv iota. cbn [inrb]. apply andb_true_iff. change (8 * 4 - 1) with 31. split; [apply Z.leb_le|apply Z.ltb_lt]; lia. }
  cbn [promote] in *. change (4 <? 4) with false in *. cbv iota in *. rewrite Ei, Z.opp_involutive. exact HQ.
Qed.
Lemma case_EX z : EX 2 (case_expr z).
Proof. unfold case_expr. destruct (z <? 0); [apx x_neg; apx x_lit|apx x_lit]. Qed.

(** One label: falling through it, and testing it. *)
Lemma label_case loc nxt dfl z fs lb st' code s' p : codegen_label W glo loc (nxt, dfl) (LCase z) (fs, lb) = Some (st', code, s') -> placed p code -> 
  exists n' a1, st' = (n', dfl) /\ lab nxt = Some a1 /\
  (forall L mem base ws m0 r m f o i, St L mem base ws m0 r m -> (forall f', wp F (MS r m (cb + (p + hsize code)) f' o i mp)) -> wp F (MS r m (cb + p) f o i mp)) /\
  (forall E s base w m0 r m v n sg fp f, VR (vars E) loc fp -> St (live E) (cmem s) base [w] m0 r m -> fp = base - W + W * fs ->
     wfty W (TInt n sg) = true -> inr_ W (TInt n sg) v -> rep (Mod W) w v -> slabs W (TInt n sg) [LCase z] = true ->
     (v = z -> forall r' m' f', St (live E) (cmem s) base [w] m0 r' m' -> wp F (MS r' m' (cb + (p + hsize code)) f' (cout s) (cin s) mp)) ->
     (v <> z -> forall a' r' m' f', lab n' = Some a' -> St (live E) (cmem s) base [w] m0 r' m' -> wp F (MS r' m' (cb + a') f' (cout s) (cin s) mp)) ->
     wp F (MS r m (cb + a1) f (cout s) (cin s) mp)).
Proof.
  intros HG Hp. unfold codegen_label in HG. destruct s'. unfold reg_X, reg_Y, reg_SP, h_jump_cond_reg_reg in HG. mj. unfold reg_X, reg_Y, reg_SP in *. norm Hp.
  cbn [app] in Hp. pose proof Hp as P0. nx Hp. destruct Hp as [Ln Hp]. plc Hp Hp1.
  match type of Hp1 with NMach.placed _ _ _ _ ?a _ => set (a1 := a) in * end.
  match goal with X : codegen_rvalue _ _ _ _ _ = _ |- _ => rename X into GE end.
  match goal with |- exists n' a, (?n0, _) = _ /\ _ => exists n0, a1 end. split; [reflexivity|]. split; [exact Ln|].
  pose proof Hp as Hp2. nx Hp2. nx Hp2. cbn [app] in Hp2. nx Hp2. nx Hp2. pose proof Hp2 as PJ. nx Hp2. destruct Hp2 as [L1 _].
  split.
  - intros L mem base ws m0 r m f o i H K. ap r_jump; [exact H|exact P0|exact L1|]. fin K.
  - intros E s base w m0 r m v n sg fp f HV H Hfp Hw Iv Rv Sl K1 K2.
    cbn [slabs] in Sl. apply andb_true_iff in Sl as [Sl _]. apply andb_true_iff in Sl as [Sl Sz2]. apply andb_true_iff in Sl as [Sz Sz1]. apply Z.ltb_lt in Sz1, Sz2.
    apply inrb_inr in Sz.
    eapply (case_EX z) with (Q := fun y s' => y = z /\ s' = s); [apply case_ce; [lia|auto]|apply case_supp| |exact GE|exact HV|exact Hp1|exact H| |].
    + cbn. destruct HW; lia.
    + change (zlen [w]) with 1. lia.
    + clear H. intros y s1 wy r1 m1 f1 [-> ->] _ Ry H. assert (Ty : 0 <= wy < MOD) by (apx tw; exact H).
      tpop H Hp r2 E2 Eq2.
      destruct (St_top W slim STOP cb GB bytes HW Hslim Hstop Hdis _ _ _ _ _ _ _ _ H) as (T1 & T2 & T3 & _).
      ap r_load; [exact H|exact Hp|discriminate|discriminate| |reflexivity| |].
      { unfold okw. destruct HW; subst W; reflexivity. }
      { pose proof (st_regs _ _ _ _ _ _ _ _ _ _ _ _ _ H 4). lia. }
      clear H. intros r3 H E3 Eq3. nx Hp. unfold ldv in E3. rewrite Z.add_0_r in E3. fold (Wn W) in E3. rewrite T1 in E3. rewrite Z.mod_small in E3 by exact T2.
      cbn [app] in Hp. pose proof (st_code _ _ _ _ _ _ _ _ _ _ _ _ _ H) as Hcd.
      destruct (lab1' _ _ _ _ _ PJ Hcd eq_refl) as [an Lan]. 
      assert (Ew : (w =? wy) = (v =? z)).
      { rewrite (rep_word W w v T2 Rv), (rep_word W wy z Ty Ry). apply eq_true_iff_eq. rewrite !Z.eqb_eq. split; [|congruence].
        apply (word_inj n sg); auto. apply promote_sub; auto. eapply wf_int; eauto. }
      ap r_cmpjump; [exact H|exact Hp|exact L1| |].
      * instantiate (1 := (v =? z)). rewrite E3, Eq3, E2 by discriminate. unfold ccsem. change (EQ =? EQ) with true. cbv iota. rewrite Ew. reflexivity.
      * intros f'. destruct (Z.eqb_spec v z) as [Ev|Ev].
        -- fin K1; eauto.
        -- ap r_jump; [exact H| |exact Lan|eapply K2; eauto]. rewrite <- Z.add_assoc in PJ. rewrite !Z.add_assoc in *. exact PJ.
Qed.
Lemma label_fs loc st lb0 fs lb st' code fs' lb' : codegen_label W glo loc st lb0 (fs, lb) = Some (st', code, (fs', lb')) -> fs' = fs.
Proof.
  intros HG. assert (X : codegen_labels W glo loc st [lb0] (fs, lb) = Some (st', code ++ [], (fs', lb'))).
  { cbn [codegen_labels]. unfold bind. rewrite HG. reflexivity. }
  apply (labels_fs W funs glo HW HF []) in X; [exact X|]. intros x t Hx. discriminate.
Qed.
Lemma labels_fs' loc st l fs lb st' code fs' lb' : codegen_labels W glo loc st l (fs, lb) = Some (st', code, (fs', lb')) -> fs' = fs.
Proof. intros HG. apply (labels_fs W funs glo HW HF []) in HG; [exact HG|]. intros x t Hx. discriminate. Qed.
Lemma label_default loc nxt dfl fs lb st' code s' p : codegen_label W glo loc (nxt, dfl) LDefault (fs, lb) = Some (st', code, s') -> placed p code ->
  exists d, dfl = None /\ st' = (nxt, Some d) /\ lab d = Some p /\ hsize code = 0.
Proof.
  unfold codegen_label. destruct s' as [zs1 zs2], dfl as [dd|]; intros HG Hp; mj. cbn [app] in Hp. destruct Hp as [L1 _]. eexists. split; [reflexivity|]. split; [reflexivity|]. split; [exact L1|]. reflexivity.
Qed.
Lemma skip_labels loc l : forall st s st' code s' p L mem base ws m0 r m f o i,
  codegen_labels W glo loc st l s = Some (st', code, s') -> placed p code -> St L mem base ws m0 r m ->
  (forall f', wp F (MS r m (cb + (p + hsize code)) f' o i mp)) -> wp F (MS r m (cb + p) f o i mp).
Proof.
  induction l as [|lb l IH]; intros [nxt dfl] [fs lb0] st' code s' p L mem base ws m0 r m f o i HG Hp H K; cbn [codegen_labels] in HG.
  - apply ret_inv in HG as (_ & -> & _). cbn [hsize] in K. rewrite Z.add_0_r in K. apply K.
  - destruct s' as [zs1 zs2]. apply bind_inv in HG as (st1 & c1 & [fs1 lb1] & c2 & G1 & G2 & ->). plc Hp Hp1. destruct lb as [zz|].
    + destruct (label_case _ _ _ _ _ _ _ _ _ _ G1 Hp1) as (n' & a1 & -> & _ & Sk & _). eapply Sk; [exact H|]. intros f'.
      eapply IH; [exact G2|exact Hp|exact H|]. intros f2. rewrite hsize_app, (Z.add_assoc p) in K. apply K.
    + destruct (label_default _ _ _ _ _ _ _ _ _ G1 Hp1) as (d & -> & -> & _ & Sz). rewrite Sz, Z.add_0_r in Hp.
      eapply IH; [exact G2|exact Hp|exact H|]. intros f2. rewrite hsize_app, Sz, Z.add_0_l in K. apply K.
Qed.
Lemma disp_labels E s base w m0 v n sg fp loc l : VR (vars E) loc fp -> wfty W (TInt n sg) = true -> inr_ W (TInt n sg) v -> rep (Mod W) w v ->
  forall nxt dfl fs lb nxt' dfl' code s' p, codegen_labels W glo loc (nxt, dfl) l (fs, lb) = Some ((nxt', dfl'), code, s') -> placed p code ->
  fp = base - W + W * fs -> slabs W (TInt n sg) l = true ->
  (has_case v l = true -> forall r' m' f', St (live E) (cmem s) base [w] m0 r' m' -> wp F (MS r' m' (cb + (p + hsize code)) f' (cout s) (cin s) mp)) ->
  (has_case v l = false -> forall a' r' m' f', lab nxt' = Some a' -> St (live E) (cmem s) base [w] m0 r' m' -> wp F (MS r' m' (cb + a') f' (cout s) (cin s) mp)) ->
  forall a r m f, lab nxt = Some a -> St (live E) (cmem s) base [w] m0 r m -> wp F (MS r m (cb + a) f (cout s) (cin s) mp).
Proof.
  intros HV Hw Iv Rv. induction l as [|lb0 l IH]; intros nxt dfl fs lb nxt' dfl' code s' p HG Hp Hfp Sl K1 K2 a r m f La H; cbn [codegen_labels] in HG.
  - apply ret_inv in HG as (HE & -> & _). apply pair_equal_spec in HE as [-> ->]. eapply K2; eauto.
  - destruct s' as [zs1 zs2]. apply bind_inv in HG as (st1 & c1 & [fs1 lb1] & c2 & G1 & G2 & ->). plc Hp Hp1. rewrite hsize_app, (Z.add_assoc p) in K1. destruct lb0 as [zz|].
    + pose proof (label_fs _ _ _ _ _ _ _ _ _ G1). subst fs1. destruct (label_case _ _ _ _ _ _ _ _ _ _ G1 Hp1) as (n' & a1 & -> & La1 & _ & Ts).
      rewrite La1 in La. apply Some_inj in La. subst a. cbn [has_case] in K1, K2.
      eapply Ts; [exact HV|exact H|exact Hfp|exact Hw|exact Iv|exact Rv| | |].
      * cbn [slabs] in *. apply andb_true_iff in Sl as [Sl _]. now rewrite Sl.
      * intros <- r' m' f' H'. eapply skip_labels; [exact G2|exact Hp|exact H'|]. intros f2. apply K1; auto. now rewrite Z.eqb_refl.
      * intros Hn a' r' m' f' La' H'. destruct (Z.eqb_spec zz v); [congruence|]. cbn [orb] in K1, K2.
        eapply IH; [exact G2|exact Hp|exact Hfp| |exact K1|exact K2|exact La'|exact H']. cbn [slabs] in Sl. apply andb_true_iff in Sl as [_ Sl]. exact Sl.
    + pose proof (label_fs _ _ _ _ _ _ _ _ _ G1). subst fs1. destruct (label_default _ _ _ _ _ _ _ _ _ G1 Hp1) as (d & -> & -> & _ & Sz).
      cbn [has_case] in *. eapply IH; [exact G2|exact Hp|exact Hfp|exact Sl|exact K1|exact K2|exact La|exact H].
Qed.
Lemma dflt_labels loc l : forall nxt dfl fs lb nxt' dfl' code s' p,
  codegen_labels W glo loc (nxt, dfl) l (fs, lb) = Some ((nxt', dfl'), code, s') -> placed p code ->
  (dfl' = dfl /\ has_default l = false) \/
  (dfl = None /\ has_default l = true /\ exists d a, dfl' = Some d /\ lab d = Some a /\
     forall L mem base ws m0 r m f o i, St L mem base ws m0 r m -> (forall f', wp F (MS r m (cb + (p + hsize code)) f' o i mp)) -> wp F (MS r m (cb + a) f o i mp)).
Proof.
  induction l as [|lb0 l IH]; intros nxt dfl fs lb nxt' dfl' code s' p HG Hp; cbn [codegen_labels] in HG.
  - apply ret_inv in HG as (HE & -> & _). apply pair_equal_spec in HE as [-> ->]. left. auto.
  - destruct s' as [zs1 zs2]. apply bind_inv in HG as (st1 & c1 & [fs1 lb1] & c2 & G1 & G2 & ->). plc Hp Hp1. destruct lb0 as [zz|].
    + destruct (label_case _ _ _ _ _ _ _ _ _ _ G1 Hp1) as (n' & a1 & -> & _ & Sk & _). cbn [has_default].
      destruct (IH _ _ _ _ _ _ _ _ _ G2 Hp) as [A|(A1 & A2 & d & a & A3 & A4 & A5)]; [left; exact A|right]. split; [exact A1|]. split; [exact A2|].
      exists d, a. split; [exact A3|]. split; [exact A4|]. intros. eapply A5; [eassumption|]. intros f'. rewrite hsize_app, (Z.add_assoc p) in H0. apply H0.
    + destruct (label_default _ _ _ _ _ _ _ _ _ G1 Hp1) as (d & -> & -> & Ld & Sz). right. split; [reflexivity|]. split; [reflexivity|].
      destruct (IH _ _ _ _ _ _ _ _ _ G2 Hp) as [[A _]|(A & _)]; [|discriminate]. exists d, p. split; [exact A|]. split; [exact Ld|].
      intros L mem base ws m0 r m f o i H K. rewrite Sz, Z.add_0_r in Hp. eapply skip_labels; [exact G2|exact Hp|exact H|]. intros f'. rewrite hsize_app, Sz, Z.add_0_l in K. apply K.
Qed.

(** [p1] is where the statement of the first item of [r] starts, [pend] the end of the body. *)
Definition after (fs : Z) (loc : list bnd) (r : swl) (p1 pend : Z) : Prop :=
  match r with
  | WNil => p1 = pend
  | WCons _ c r' => exists lb1 u1 c1 lb2 st st' c2 s2, cgs loc c (fs, lb1) = Some (u1, c1, (fs, lb2)) /\ placed p1 c1 /\
      cgw loc st r' (fs, lb2) = Some (st', c2, s2) /\ placed (p1 + hsize c1) c2 /\ pend = p1 + hsize c1 + hsize c2
  end.
Lemma ss_fs' E c loc fp rt cont fs lb u code fs' lb' : VR (vars E) loc fp -> ss (tys (vars E)) rt cont c = true -> cgs loc c (fs, lb) = Some (u, code, (fs', lb')) -> fs' = fs.
Proof. intros. apx ss_fs; eauto. Qed.
Lemma swl_start E loc fp rt cont t l st fs lb st' code s' p L mem base ws m0 r m f o i : VR (vars E) loc fp -> sw (tys (vars E)) rt cont t l = true ->
  cgw loc st l (fs, lb) = Some (st', code, s') -> placed p code -> St L mem base ws m0 r m ->
  (forall p1 f', after fs loc l p1 (p + hsize code) -> wp F (MS r m (cb + p1) f' o i mp)) -> wp F (MS r m (cb + p) f o i mp).
Proof.
  intros HV HS HG Hp H K. rewrite codegen_swl_eq in HG. unfold codegen_swl_body in HG. destruct l as [|labs c l].
  - apply ret_inv in HG as (_ & -> & _). apply K. cbn. lia.
  - rewrite sw_eq in HS. unfold sw_body in HS. apply andb_true_iff in HS as [HS S3]. apply andb_true_iff in HS as [S1 S2].
    destruct s' as [zs1 zs2]. apply bind_inv in HG as (st1 & c1 & [fs1 lb1] & c2' & G1 & HG & ->). apply bind_inv in HG as (u2 & c2 & [fs2 lb2] & c3 & G2 & G3 & ->).
    pose proof (labels_fs' _ _ _ _ _ _ _ _ _ G1). subst fs1. pose proof (ss_fs' _ _ _ _ _ _ _ _ _ _ _ _ HV S2 G2). subst fs2.
    plc Hp Hp1. plc Hp Hp2. eapply skip_labels; [exact G1|exact Hp1|exact H|]. intros f'. apply K. cbn [after]. do 8 eexists. split; [exact G2|]. split; [exact Hp2|]. split; [exact G3|]. split; [exact Hp|].
    rewrite !hsize_app. lia.
Qed.
Lemma disp_swl E s base w m0 v n sg fp loc rt cont l : VR (vars E) loc fp -> wfty W (TInt n sg) = true -> inr_ W (TInt n sg) v -> rep (Mod W) w v ->
  forall nxt dfl fs lb nxt' dfl' code s' p, cgw loc (nxt, dfl) l (fs, lb) = Some ((nxt', dfl'), code, s') -> placed p code ->
  fp = base - W + W * fs -> sw (tys (vars E)) rt cont (TInt n sg) l = true ->
  (forall r0 p1 r' m' f', seek (has_case v) l = Some r0 -> after fs loc r0 p1 (p + hsize code) -> sw (tys (vars E)) rt cont (TInt n sg) r0 = true ->
     St (live E) (cmem s) base [w] m0 r' m' -> wp F (MS r' m' (cb + p1) f' (cout s) (cin s) mp)) ->
  (seek (has_case v) l = None -> forall a' r' m' f', lab nxt' = Some a' -> St (live E) (cmem s) base [w] m0 r' m' -> wp F (MS r' m' (cb + a') f' (cout s) (cin s) mp)) ->
  forall a r m f, lab nxt = Some a -> St (live E) (cmem s) base [w] m0 r m -> wp F (MS r m (cb + a) f (cout s) (cin s) mp).
Proof.
  intros HV Hw Iv Rv. induction l as [|labs c l IH]; intros nxt dfl fs lb nxt' dfl' code s' p HG Hp Hfp HS K1 K2 a r m f La H;
    rewrite codegen_swl_eq in HG; unfold codegen_swl_body in HG.
  - apply ret_inv in HG as (HE & -> & _). apply pair_equal_spec in HE as [-> ->]. eapply K2; eauto.
  - pose proof HS as HS0. rewrite sw_eq in HS. unfold sw_body in HS. apply andb_true_iff in HS as [HS S3]. apply andb_true_iff in HS as [S1 S2].
    destruct s' as [zs1 zs2]. apply bind_inv in HG as ([n1 d1] & c1 & [fs1 lb1] & c2' & G1 & HG & ->). apply bind_inv in HG as (u2 & c2 & [fs2 lb2] & c3 & G2 & G3 & ->).
    pose proof (labels_fs' _ _ _ _ _ _ _ _ _ G1). subst fs1. pose proof (ss_fs' _ _ _ _ _ _ _ _ _ _ _ _ HV S2 G2). subst fs2.
    plc Hp Hp1. plc Hp Hp2. cbn [seek] in K1, K2.
    eapply disp_labels; [exact HV|exact Hw|exact Iv|exact Rv|exact G1|exact Hp1|exact Hfp|exact S1| | |exact La|exact H].
    + intros Hh r' m' f' H'. rewrite Hh in K1. eapply K1; [reflexivity| |exact HS0|exact H']. cbn [after]. do 8 eexists. split; [exact G2|]. split; [exact Hp2|]. split; [exact G3|]. split; [exact Hp|].
      rewrite !hsize_app. lia.
    + intros Hh a' r' m' f' La' H'. rewrite Hh in K1, K2.
      eapply IH; [exact G3|exact Hp|exact Hfp|exact S3| |exact K2|exact La'|exact H'].
      intros r0 p1 r2 m2 f2 Hs Ha. eapply K1; [exact Hs|]. replace (p + hsize (c1 ++ c2 ++ c3)) with (p + hsize c1 + hsize c2 + hsize c3) by (rewrite !hsize_app; lia). exact Ha.
Qed.
Lemma dflt_swl E fp loc rt cont t l : VR (vars E) loc fp -> forall nxt dfl fs lb nxt' dfl' code s' p,
  cgw loc (nxt, dfl) l (fs, lb) = Some ((nxt', dfl'), code, s') -> placed p code -> sw (tys (vars E)) rt cont t l = true ->
  (dfl' = dfl /\ seek has_default l = None) \/
  (dfl = None /\ exists d a r0, dfl' = Some d /\ lab d = Some a /\ seek has_default l = Some r0 /\ sw (tys (vars E)) rt cont t r0 = true /\
     forall L mem base ws m0 r m f o i, St L mem base ws m0 r m -> (forall p1 f', after fs loc r0 p1 (p + hsize code) -> wp F (MS r m (cb + p1) f' o i mp)) -> wp F (MS r m (cb + a) f o i mp)).
Proof.
  intros HV. induction l as [|labs c l IH]; intros nxt dfl fs lb nxt' dfl' code s' p HG Hp HS; rewrite codegen_swl_eq in HG; unfold codegen_swl_body in HG.
  - apply ret_inv in HG as (HE & -> & _). apply pair_equal_spec in HE as [-> ->]. left. auto.
  - pose proof HS as HS0. rewrite sw_eq in HS. unfold sw_body in HS. apply andb_true_iff in HS as [HS S3]. apply andb_true_iff in HS as [S1 S2].
    destruct s' as [zs1 zs2]. apply bind_inv in HG as ([n1 d1] & c1 & [fs1 lb1] & c2' & G1 & HG & ->). apply bind_inv in HG as (u2 & c2 & [fs2 lb2] & c3 & G2 & G3 & ->).
    pose proof (labels_fs' _ _ _ _ _ _ _ _ _ G1). subst fs1. pose proof (ss_fs' _ _ _ _ _ _ _ _ _ _ _ _ HV S2 G2). subst fs2.
    plc Hp Hp1. plc Hp Hp2. cbn [seek].
    destruct (dflt_labels _ _ _ _ _ _ _ _ _ _ _ G1 Hp1) as [[-> ->]|(-> & -> & d & a & -> & La & Sk)].
    + destruct (IH _ _ _ _ _ _ _ _ _ G3 Hp S3) as [A|(A1 & d & a & r0 & A3 & A4 & A5 & A6 & A7)]; [left; exact A|right]. split; [exact A1|].
      exists d, a, r0. do 4 (split; [assumption|]). intros. eapply A7; [eassumption|]. intros p1 f' Ha. apply H0.
      replace (p + hsize (c1 ++ c2 ++ c3)) with (p + hsize c1 + hsize c2 + hsize c3) by (rewrite !hsize_app; lia). exact Ha.
    + right. split; [reflexivity|]. destruct (IH _ _ _ _ _ _ _ _ _ G3 Hp S3) as [[-> _]|(A1 & _)]; [|discriminate].
      exists d, a, (WCons labs c l). do 4 (split; [auto|]). intros. eapply Sk; [eassumption|]. intros f'. apply H0. cbn [after]. do 8 eexists. split; [exact G2|]. split; [exact Hp2|]. split; [exact G3|]. split; [exact Hp|].
      rewrite !hsize_app. lia.
Qed.
Lemma swl_fs' E l loc fp rt cont t st fs lb st' code fs' lb' : VR (vars E) loc fp -> sw (tys (vars E)) rt cont t l = true -> cgw loc st l (fs, lb) = Some (st', code, (fs', lb')) -> fs' = fs.
Proof.
  intros HV HS HG. destruct (stmt_fs W funs glo HW HF) as (_ & _ & A). change (fst (fs', lb') = fst (fs, lb)). eapply A; [|exact HS|exact HG]. intros x tt Hx. apx VR_ty; eauto.
Qed.
Definition WX (k : nat) (r : swl) : Prop := forall E s Q rt cont t loc fp fs base m0 rg m p1 pend f,
  cw k E r s Q -> sw (tys (vars E)) rt cont t r = true -> after fs loc r p1 pend ->
  VR (vars E) loc fp -> St (live E) (cmem s) base [] m0 rg m -> fp = base + W * fs -> 0 <= fs -> fp + W < MOD ->
  XK (live E) loc cont rt fp base m0 Q ->
  (forall s' r' m' f', Q ONormal s' -> St (live E) (cmem s') base [] m0 r' m' ->
     wp F (MS r' m' (cb + pend) f' (cout s') (cin s') mp)) ->
  wp F (MS rg m (cb + p1) f (cout s) (cin s) mp).
Lemma w_step k : (forall c, SX k c) -> (forall r, WX k r) -> forall r, WX (S k) r.
Proof.
  intros IS IW l E s Q rt cont t loc fp fs base m0 r m p1 pend f HC HS HA HV H Hfp Hfs Hmx XX KN.
  rewrite cw_eq in HC. unfold cw_body in HC. destruct l as [|labs c l]; cbn [after] in HA.
  - subst pend. eapply KN; eauto.
  - destruct HA as (lb1 & u1 & c1 & lb2 & st & st' & c2 & s2 & G1 & Hp1 & G2 & Hp2 & ->).
    rewrite sw_eq in HS. unfold sw_body in HS. apply andb_true_iff in HS as [HS S3]. apply andb_true_iff in HS as [_ S2].
    eapply IS; [exact HC|exact S2|exact G1|exact HV|exact Hp1|exact H|exact Hfp|exact Hfs|exact Hmx| |].
    + apx XK_imp; [|exact XX]. intros o s' Ho. destruct o; congruence || auto.
    + clear H. intros s' r' m' f' HQ H. cbv beta iota in HQ. eapply swl_start; [exact HV|exact S3|exact G2|exact Hp2|exact H|].
      intros p2 f2 Ha. eapply IW; [exact HQ|exact S3|exact Ha|exact HV|exact H|exact Hfp|exact Hfs|exact Hmx|exact XX|exact KN].
Qed.
Lemma s_switch k e l : EX k e -> (forall r, WX k r) -> SX (S k) (SSwitch e l).
Proof.
  intros IE IW. intros E s Q rt cont loc fp fs lb u code st' base m0 r m p f HC HS HG HV Hp H Hfp Hfs Hmx XX KN.
  rewrite cs_eq in HC; rewrite ss_eq in HS; rewrite codegen_statement_eq in HG;
  unfold cs_body, ss_body, codegen_statement_body in HC, HS, HG; cbv beta iota zeta in HC, HS, HG;
  destruct st' as [zs1 zs2]. destruct (ctype W funs (tys (vars E)) e) as [tt0|] eqn:Et; [|contradiction]. destruct tt0 as [n sg|tt0|tt0 nn| |]; try contradiction.
  apply andb_true_iff in HS as [HS S2]. apply andb_true_iff in HS as [Sw S1]. unfold reg_SP in *. mj.
  match goal with X : codegen_rvalue _ _ ?ll _ _ = _ |- _ => rename X into G1; set (loc' := ll) in *; assert (HV' : VR (vars E) loc' fp) by (apx VR_sw; exact HV) end.
  match goal with X : cgw _ _ _ _ = _ |- _ => rename X into G2 end.
  match type of G1 with _ = Some (_, _, (?b, _)) => assert (F1 : b = fs + 1) by (apx rvf'; [exact HV'|exact S1|exact G1]); subst b end.
  match type of G2 with _ = Some (?x, _, (?b, ?l0)) => pose proof (swl_fs' _ _ _ _ _ _ _ _ _ _ _ _ _ _ HV' S2 G2) as F2; subst b; destruct x as [nx0 df0]; rename l0 into l3 end.
  cbn [fst snd] in *. unfold reg_SP in *. norm Hp. plc Hp Hp1. pose proof Hp as PJ. nx Hp. plc Hp Hp2. pose proof Hp as PE. nx Hp. nx Hp. destruct Hp as [Ln Hp]. plc Hp Hp3.
  destruct Hp as [L3 Hp]. pose proof Hp as PD. nx Hp. destruct Hp as [L1 _].
  match type of H13 with _ = Some (_, ?c, (_, _)) => rename c into cd end.
  destruct (lab1' _ _ _ _ _ PJ (st_code _ _ _ _ _ _ _ _ _ _ _ _ _ H) eq_refl) as [ad La].
  assert (Hlim : slim <= base <= STOP /\ sep (live E) base) by (apx St_lim; exact H).
  eapply IE; [exact HC|exact S1| |exact G1|exact HV'|exact Hp1|exact H| |]; [cbn; destruct HW; lia|cbn; lia|].
  clear H. intros v s1 w r1 m1 f1 HQ [Hv _] Rw H. specialize (Hv _ Et). cbv beta in HQ.
  assert (AFT : forall s' r' m' f' al w', Q ONormal s' -> lab l3 = Some al -> St (live E) (cmem s') base [w'] m0 r' m' -> wp F (MS r' m' (cb + al) f' (cout s') (cin s') mp)).
  { intros s' r' m' f' al w' HQ' HL H'. rewrite L3 in HL. apply Some_inj in HL. subst al.
    eapply r_drop with (n := 1) (vs := [w']) (ws := @nil Z); [exact HW|exact Hslim|exact Hstop|exact Hdis|exact H'|exact PD|reflexivity|lia|]. clear H'. intros r2 H' _. fin KN; eauto. }
  set (pend := p + hsize x7 + ilen W (HJump (lb + 1)) + hsize x13) in *.
  assert (BODY : forall r0 p1 r' m' f', cw k E r0 s1 (fun o s0 => match o with OBreak => Q ONormal s0 | _ => Q o s0 end) -> sw (tys (vars E)) rt cont (TInt n sg) r0 = true ->
     after (fs + 1) loc' r0 p1 pend -> St (live E) (cmem s1) base [w] m0 r' m' -> wp F (MS r' m' (cb + p1) f' (cout s1) (cin s1) mp)).
  { clear H. intros r0 p1 r' m' f' HQ' Hr Ha H. pose proof (St_start _ _ _ _ _ _ HW Hslim Hstop Hdis _ _ _ _ _ _ _ H) as HB.
    pose proof (st_sp _ _ _ _ _ _ _ _ _ _ _ _ _ H) as E4. change (zlen [w]) with 1 in E4.
    eapply IW; [exact HQ'|exact Hr|exact Ha|exact HV'|exact HB|lia|lia|exact Hmx| |].
    - assert (HX0 : FR (live E) base m0 m') by (apply (st_fr _ _ _ _ _ _ _ _ _ _ _ _ _ H)). assert (Hlo : r' 4 <= base) by (destruct HW; lia).
      destruct XX as (X1 & X2 & X3 & X4 & X5). refine (conj _ (conj _ (conj _ (conj _ _)))); unfold loc'; cbn [encl_any encl_loop].
      + intros bfs bl HE. apply Some_inj, pair_equal_spec in HE as [<- <-]. exact Hfs.
      + exact X2.
      + intros s' r2 m2 f2 bfs bl al HQ2 HE HL HX Hr4. apply Some_inj, pair_equal_spec in HE as [<- <-]. rewrite L1 in HL. apply Some_inj in HL. subst al.
        fin KN; [exact HQ2|]. apx Xt_St; [apx Xt_trans; [exact HX0|exact Hlo|exact HX]|apply Hlim|apply Hlim|lia].
      + intros Hc s' r2 m2 f2 bfs bl al HQ2 HE HL HX Hr4. eapply X4; [exact Hc|exact HQ2|exact HE|exact HL|apx Xt_trans; [exact HX0|exact Hlo|exact HX]|exact Hr4].
      + intros vv s' r2 m2 f2 HQ2 HX. eapply X5; [exact HQ2|]. apx Xt_trans; [exact HX0|exact Hlo|exact HX].
    - intros s' r2 m2 f2 HQ2 H2. cbv beta iota in HQ2. pose proof (St_back _ _ _ _ _ _ HW Hslim Hstop Hdis _ _ _ _ _ _ _ _ _ _ _ H H2) as H3. cbn [app] in H3.
      eapply r_drop with (n := 0) (vs := @nil Z) (ws := [w]); [exact HW|exact Hslim|exact Hstop|exact Hdis|exact H3|exact PE|reflexivity|lia|]. clear H3. intros r3 H3 _. nx PE. 
      ap r_jump; [exact H3|exact PE|exact L3|]. eapply AFT; [exact HQ2|exact L3|exact H3]. }
  ap r_jump; [exact H|exact PJ|exact La|].
  eapply disp_swl; [exact HV'|exact Sw|exact Hv|exact Rw|exact G2|exact Hp2| |exact S2| | |exact La|exact H].
  - lia.
  - intros r0 p1 r' m' f' Hs Ha Hr H'. eapply BODY; [|exact Hr|exact Ha|exact H']. unfold entry in HQ. rewrite Hs in HQ. exact HQ.
  - clear H. intros Hs a' r' m' f' HL H. rewrite Ln in HL. apply Some_inj in HL. subst a'. unfold entry in HQ. rewrite Hs in HQ.
    destruct (dflt_swl _ _ _ _ _ _ _ HV' _ _ _ _ _ _ _ _ _ G2 Hp2 S2) as [[-> Hd]|(_ & d & a & r0 & -> & Ld & Hd & Hr & KD)]; rewrite Hd in HQ; mj.
    + cbn [hsize] in L3. rewrite Z.add_0_r in L3. destruct k as [|k]; [exfalso; eapply cw_0; exact HQ|]. rewrite cw_eq in HQ. unfold cw_body in HQ. eapply AFT; [exact HQ|exact L3|exact H].
    + ap r_jump; [exact H|exact Hp3|exact Ld|]. eapply KD; [exact H|]. intros p1 f2 Ha. eapply BODY; [exact HQ|exact Hr|exact Ha|exact H].
Qed.
End X.
