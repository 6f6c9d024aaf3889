(** * Statements: the emitted code does what the C statement does *)
From Coq Require Import ZArith List Lia Bool.
From Verif Require Import Base Asm AsmProof X86 X86Proof X86Sem NMach NPtr CLang NGen NSupp NBin NRun NBop NEqs NStat NJudge NExpr NExpr2 NExpr3 NExpr4 NStat2.
Import ListNotations.
Open Scope Z_scope.

Section X.
Variables (W slim STOP cb GB : Z) (bytes : list Z) (lab : Z -> option Z).
Variables (funs : cdecls) (gvars : list (Z * (Z * ty))) (glo : list gbnd) (F : mst -> Prop) (mp : list Z).
Hypothesis HW : W = 4 \/ W = 8.
Hypothesis Hslim : 0 < slim.
Hypothesis Hstop : STOP < MOD W.
Hypothesis Hdis : STOP <= cb \/ cb + zlen bytes <= slim.
Hypothesis Hcb : 0 <= cb /\ cb + zlen bytes <= MOD W.
Hypothesis HF : decl_ok funs glo.
Set Default Proof Using "HW Hslim Hstop Hdis Hcb HF".
Notation placed := (placed W cb bytes lab).
Notation hsize := (hsize W).
Notation wp := (wp W slim).
Notation MOD := (MOD W).
Notation St := (St W slim STOP cb GB bytes).
Notation EX := (EX W slim STOP cb GB bytes lab funs gvars glo F mp).
Notation LX := (LX W slim STOP cb GB bytes lab funs gvars glo F mp).
Notation AX := (AX W slim STOP cb GB bytes lab funs gvars glo F mp).
Notation CX := (CX W slim STOP cb GB bytes lab funs gvars glo F mp).
Notation VR := (VR W GB glo).
Notation vok := (vok W funs).
Ltac ap R ::= eapply R; [exact HW|exact Hslim|exact Hstop|exact Hdis|..].
Ltac apx R ::= eapply R; [exact HW|exact Hslim|exact Hstop|exact Hdis|exact Hcb|exact HF|..].
Notation cs := (cs W funs gvars).
Notation ci := (ci W funs gvars).
Notation cw := (cw W funs gvars).
Notation cfor := (cfor W funs gvars).
Notation sep := (sep slim cb bytes).
Notation FR := (FR slim).
Notation ss := (ss W funs).
Notation si := (si W funs).
Notation sw := (sw W funs).
Notation cgs := (codegen_statement W glo).
Notation cgi := (codegen_items W glo).
Notation cgw := (codegen_swl W glo).

(** The state at an exit, without a claim about the stack pointer. *)
Record Xt (L : list (Z * Z)) (mem : Z -> Z) (lo : Z) (m0 r m : Z -> Z) : Prop := {
  xt_regs : regs_ok W r;
  xt_bytes : bytes_ok m;
  xt_cb : bytes_ok mem;
  xt_code : codeok cb bytes m;
  xt_glo : r 3 = GB;
  xt_agree : forall a, inlive L a -> m a = mem a;
  xt_fr : FR L lo m0 m }.
Lemma Xt_of L mem base ws m0 r m : St L mem base ws m0 r m -> Xt L mem base m0 r m.
Proof. intros []. constructor; auto. Qed.
Lemma Xt_St L mem lo m0 r m : Xt L mem lo m0 r m -> slim <= lo <= STOP -> sep L lo -> r 4 = lo -> St L mem lo [] m0 r m.
Proof. intros [] H1 H2 H3. constructor; auto; try (cbn; lia). Qed.
Lemma Xt_sp L mem lo m0 r m v : Xt L mem lo m0 r m -> 0 <= v < MOD -> Xt L mem lo m0 (upd r 4 v) m.
Proof. intros [] Hv. constructor; auto. apply regs_upd; auto. Qed.
Lemma FRt L lo m m' m'' : FR L lo m m' -> FR L lo m' m'' -> FR L lo m m''.
Proof. intros H1 H2 a Ha Hl. rewrite (H2 a Ha Hl). auto. Qed.
Lemma FRl L lo lo' m m' : FR L lo m m' -> lo <= lo' -> FR L lo' m m'.
Proof. intros H1 H2 a Ha Hl. apply H1; auto. lia. Qed.
Lemma Xt_trans L mem lo lo' m0 m1 r m : FR L lo m0 m1 -> lo' <= lo -> Xt L mem lo' m1 r m -> Xt L mem lo m0 r m.
Proof. intros H1 H2 []. constructor; auto. eapply FRt; [exact H1|]. eapply FRl; [eassumption|lia]. Qed.
(** Leaving the scope of an object. *)
Lemma Xt_decl L mem lo a n m0 m1 r m : FR L lo m0 m1 -> slim <= a -> a + n <= lo -> 0 <= n -> Xt ((a, n) :: L) mem a m1 r m -> Xt L mem lo m0 r m.
Proof.
  intros H1 H2 H3 Hn []. constructor; auto.
  - intros x [b [Hb Hx]]. apply xt_agree0. exists b. split; [now right|exact Hx].
  - intros x Hx Hl. rewrite xt_fr0; [apply H1; auto|lia|]. intros [b [[<-|Hb] Hx']]; cbn [fst snd] in *; [lia|]. apply Hl. exists b. auto.
Qed.

Definition Rk (rt : ty) : Z := match rt with TVoid => 0 | _ => W end.
(** What the code around a statement does when it is left by break, continue or return. *)
Definition XK (L : list (Z * Z)) (loc : list bnd) (cont : bool) (rt : ty) (fp lo : Z) (m0 : Z -> Z) (Q : out -> cst -> Prop) : Prop :=
  (forall bfs bl, encl_any loc = Some (bfs, bl) -> 0 <= bfs) /\
  (forall bfs bl, encl_loop loc = Some (bfs, bl) -> 0 <= bfs) /\
  (forall s' r' m' f' bfs bl al, Q OBreak s' -> encl_any loc = Some (bfs, bl) -> lab bl = Some al ->
     Xt L (cmem s') lo m0 r' m' -> r' 4 = fp - W * bfs -> wp F (MS r' m' (cb + al) f' (cout s') (cin s') mp)) /\
  (cont = true -> forall s' r' m' f' bfs bl al, Q OContinue s' -> encl_loop loc = Some (bfs, bl) -> lab bl = Some al ->
     Xt L (cmem s') lo m0 r' m' -> r' 4 = fp - W * bfs -> wp F (MS r' m' (cb + al) f' (cout s') (cin s') mp)) /\
  (forall v s' r' m' f', Q (OReturn v) s' -> Xt L (cmem s') lo m0 r' m' -> r' 4 = fp + W ->
     rep (Mod (Rk rt)) (r' 0) (conv W rt v) -> inr_ W rt (conv W rt v) ->
     wp F (MS r' m' (rd (Wn W) m' fp) f' (cout s') (cin s') mp)).
Lemma XK_imp L loc cont rt fp lo m0 (Q R : out -> cst -> Prop) : (forall o s, o <> ONormal -> R o s -> Q o s) -> XK L loc cont rt fp lo m0 Q -> XK L loc cont rt fp lo m0 R.
Proof.
  intros H (X1 & X2 & X3 & X4 & X5). refine (conj X1 (conj X2 (conj _ (conj _ _)))).
  - intros. eapply X3; eauto. apply H; [discriminate|assumption].
  - intros. eapply X4; eauto. apply H; [discriminate|assumption].
  - intros. eapply X5; eauto. apply H; [discriminate|assumption].
Qed.
Lemma XK_trans L loc cont rt fp lo lo' m0 m1 Q : FR L lo m0 m1 -> lo' <= lo -> XK L loc cont rt fp lo m0 Q -> XK L loc cont rt fp lo' m1 Q.
Proof.
  intros H1 H2 (X1 & X2 & X3 & X4 & X5). repeat split; auto; intros.
  - eapply X3; eauto. eapply Xt_trans; eauto.
  - eapply X4; eauto. eapply Xt_trans; eauto.
  - eapply X5; eauto. eapply Xt_trans; eauto.
Qed.

Definition SX (k : nat) (c : stmt) : Prop := forall E s Q rt cont loc fp fs lb u code st' base m0 r m p f,
  cs k E c s Q -> ss (tys (vars E)) rt cont c = true -> cgs loc c (fs, lb) = Some (u, code, st') ->
  VR (vars E) loc fp -> placed p code -> St (live E) (cmem s) base [] m0 r m -> fp = base + W * fs -> 0 <= fs -> fp + W < MOD ->
  XK (live E) loc cont rt fp base m0 Q ->
  (forall s' r' m' f', Q ONormal s' -> St (live E) (cmem s') base [] m0 r' m' ->
     wp F (MS r' m' (cb + (p + hsize code)) f' (cout s') (cin s') mp)) ->
  wp F (MS r m (cb + p) f (cout s) (cin s) mp).
Definition IX (k : nat) (l : items) : Prop := forall E s Q rt cont loc fp fs lb u code fs' lb' base m0 r m p f,
  ci k E l s Q -> si (tys (vars E)) rt cont l = true -> cgi loc l (fs, lb) = Some (u, code, (fs', lb')) ->
  VR (vars E) loc fp -> placed p code -> St (live E) (cmem s) base [] m0 r m -> fp = base + W * fs -> 0 <= fs -> fp + W < MOD ->
  XK (live E) loc cont rt fp base m0 Q ->
  (forall s' r' m' f', Q ONormal s' -> Xt (live E) (cmem s') base m0 r' m' -> r' 4 = fp - W * fs' -> slim <= r' 4 ->
     wp F (MS r' m' (cb + (p + hsize code)) f' (cout s') (cin s') mp)) ->
  wp F (MS r m (cb + p) f (cout s) (cin s) mp).

Ltac plc Hp Hp1 := apply (placed_app _ _ _ _ HW) in Hp as [Hp1 Hp].
Ltac top H := let Rg := fresh "Rg" in assert (Rg : 0 <= _ < MOD) by (apx tw; exact H).
Lemma rvf' E loc fp m e fs lb u c fs' lb' : VR (vars E) loc fp -> supp W funs (tys (vars E)) m e = true ->
  codegen_rvalue W glo loc e (fs, lb) = Some (u, c, (fs', lb')) -> fs' = fs + 1.
Proof. intros. eapply rvf; [..|eassumption]; eauto. Qed.
Ltac fsx HV := repeat match goal with
  | S : supp _ _ _ _ ?e = true, G : codegen_rvalue _ _ _ ?e (?a, _) = Some (_, _, (?b, _)) |- _ =>
      lazymatch goal with _ : b = a + 1 |- _ => fail | _ => assert (b = a + 1) by (eapply rvf'; [exact HV|exact S|exact G]) end
  end.
Ltac case1 :=
  intros E s Q rt cont loc fp fs lb u code st' base m0 r m p f HC HS HG HV Hp H Hfp Hfs Hmx XX KN;
  rewrite cs_eq in HC; rewrite ss_eq in HS; rewrite codegen_statement_eq in HG;
  unfold cs_body, ss_body, codegen_statement_body in HC, HS, HG; cbv beta iota zeta in HC, HS, HG;
  destruct st' as [? ?].
Lemma VR_loop V loc fp a b c : VR V loc fp -> VR V (BLoop a b c :: loc) fp.
Proof. intros H x aa t Hx. exact (H x aa t Hx). Qed.
Lemma VR_sw V loc fp a b : VR V loc fp -> VR V (BSwitch a b :: loc) fp.
Proof. intros H x aa t Hx. exact (H x aa t Hx). Qed.

Lemma s_skip k : SX (S k) SSkip.
Proof. case1. mj. cbn [hsize] in KN. rewrite Z.add_0_r in KN. eapply KN; eauto. Qed.
Lemma s_expr k e : EX k e -> SX (S k) (SExpr e).
Proof.
  intros IH. case1. unfold reg_X in *. mj. fsx HV. norm Hp. plc Hp Hp1.
  eapply IH; [exact HC|exact HS| |eassumption|exact HV|exact Hp1|exact H| |].
  - cbn. destruct HW; lia.
  - cbn. lia.
  - clear H. intros vx s1 w r1 m1 f1 HQ _ _ H. tpop H Hp r2 E2 Eq2. fin KN; eauto.
Qed.
Lemma test_ok k E e s Q loc c l fs lb u code st' base m0 r m p f fp : EX k e ->
  ce W funs gvars k E e s Q -> supp W funs (tys (vars E)) Truth e = true -> test W glo loc e c l (fs, lb) = Some (u, code, st') ->
  VR (vars E) loc fp -> placed p code -> St (live E) (cmem s) base [] m0 r m -> fp = base + W * fs -> c = EQ \/ c = NE ->
  (forall v s' r' m' f' al, Q v s' -> St (live E) (cmem s') base [] m0 r' m' -> lab l = Some al ->
     wp F (MS r' m' (cb + (if (if c =? EQ then (v =? 0) else negb (v =? 0)) then al else p + hsize code)) f' (cout s') (cin s') mp)) ->
  wp F (MS r m (cb + p) f (cout s) (cin s) mp).
Proof.
  intros IH HC HS HG HV Hp H Hfp Hc K. unfold test, reg_X, reg_Y in HG. destruct st'. mj. fsx HV. norm Hp. plc Hp Hp1.
  eapply IH; [exact HC|exact HS|exact I|eassumption|exact HV|exact Hp1|exact H|cbn; lia|].
  clear H. intros vx s1 w r1 m1 f1 HQ _ Rx H. tpop H Hp r2 E2 Eq2. pose proof (st_code _ _ _ _ _ _ _ _ _ _ _ _ _ H) as Hcd.
  pose proof Hp as Hpk. rewrite <- (app_nil_r (h_jump_cond_reg_reg c l 0 1)) in Hpk.
  edestruct (lab_of2 W slim STOP cb bytes lab funs glo) as [al La]; [assumption..|exact Hcd|exact Hpk|].
  apx r_test; [exact H|exact Hpk|exact E2|exact La| |].
  - instantiate (1 := if c =? EQ then w =? 0 else negb (w =? 0)). destruct Hc as [-> | ->]; auto.
  - clear H. intros r4 f4 H _. specialize (K vx s1 r4 m1 f4 al HQ H La).
    replace (if c =? EQ then w =? 0 else negb (w =? 0)) with (if c =? EQ then vx =? 0 else negb (vx =? 0)).
    2: { cbn [rep] in Rx. destruct (c =? EQ), (Z.eqb_spec w 0), (Z.eqb_spec vx 0); try reflexivity; exfalso; tauto. }
    destruct (if c =? EQ then vx =? 0 else negb (vx =? 0)); [exact K|].
    match goal with |- wp F (MS _ _ (cb + ?x) _ _ _ _) => match type of K with wp F (MS _ _ (cb + ?y) _ _ _ _) => replace x with y; [exact K|] end end.
    rewrite hsize_app. cbn [hsize app]. lia.
Qed.
Lemma lab1' p h l k m : placed p (HC h :: k) -> codeok cb bytes m -> hlabel h = Some l -> exists a, lab l = Some a.
Proof. intros Hp Hm Hl. eapply lab_of; eauto. Qed.
Lemma ss_fs E c loc fp rt cont fs lb u code fs' lb' : VR (vars E) loc fp -> ss (tys (vars E)) rt cont c = true -> cgs loc c (fs, lb) = Some (u, code, (fs', lb')) -> fs' = fs.
Proof. intros HV HS HG. destruct (stmt_fs W funs glo HW HF) as (A & _ & _). change (fst (fs', lb') = fst (fs, lb)). eapply A; [|exact HS|exact HG]. intros x t Hx. apx VR_ty; eauto. Qed.
Lemma test_fs' E e loc fp c l fs lb u code fs' lb' : VR (vars E) loc fp -> supp W funs (tys (vars E)) Truth e = true -> test W glo loc e c l (fs, lb) = Some (u, code, (fs', lb')) -> fs' = fs.
Proof. intros HV HS HG. change (fst (fs', lb') = fst (fs, lb)). eapply test_fs; [exact HW|exact HF| |exact HS|exact HG]. intros x t Hx. apx VR_ty; eauto. Qed.
Lemma opt_fs' E e loc fp fs lb u code fs' lb' : VR (vars E) loc fp -> sopt W funs (tys (vars E)) e = true -> codegen_opt W glo loc e (fs, lb) = Some (u, code, (fs', lb')) -> fs' = fs.
Proof. intros HV HS HG. change (fst (fs', lb') = fst (fs, lb)). eapply (opt_fs W funs glo HW HF) with (m := Mod 0); [| |exact HG]. { intros x t Hx. apx VR_ty; eauto. } destruct e; [exact HS|exact I]. Qed.
Lemma s_if k e c1 c2 : EX k e -> SX k c1 -> SX k c2 -> SX (S k) (SIf e c1 c2).
Proof.
  intros IE I1 I2. case1. apply andb_true_iff in HS as [HS S2]. apply andb_true_iff in HS as [S1 S1']. mj.
  match goal with X : test _ _ _ _ _ _ _ = _ |- _ => pose proof (test_fs' _ _ _ _ _ _ _ _ _ _ _ _ HV S1 X) as F1; rename X into G1 end.
  match goal with X : cgs _ c1 _ = _ |- _ => pose proof (ss_fs _ _ _ _ _ _ _ _ _ _ _ _ HV S1' X) as F2; rename X into G2 end.
  match goal with X : cgs _ c2 _ = _ |- _ => rename X into G3 end.
  norm Hp. plc Hp Hp1. plc Hp Hp2. pose proof Hp as Hp3. nx Hp3. destruct Hp3 as [L1 Hp3]. plc Hp3 Hp4. destruct Hp3 as [L2 _].
  eapply test_ok; [exact IE|exact HC|exact S1|exact G1|exact HV|exact Hp1|exact H|lia|auto|].
  clear H. intros vx s1 r1 m1 f1 al HQ H La. rewrite L1 in La. apply Some_inj in La. subst al. change (EQ =? EQ) with true. cbv iota. cbv beta in HQ.
  destruct (vx =? 0).
  - eapply I2; [exact HQ|exact S2|exact G3|exact HV|exact Hp4|exact H|lia|lia|exact Hmx|exact XX|].
    clear H. intros s2 r2 m2 f2 HQ2 H. fin KN; eauto.
  - eapply I1; [exact HQ|exact S1'|exact G2|exact HV|exact Hp2|exact H|lia|lia|exact Hmx|exact XX|].
    clear H. intros s2 r2 m2 f2 HQ2 H. ap r_jump; [exact H|exact Hp|exact L2|]. fin KN; eauto.
Qed.
(** Entering a loop whose break and continue labels are at [pb] and [pc]. *)
Lemma XK_loop L loc cont rt fp fs lo m0 Q (Q' : out -> cst -> Prop) lbr lct pb pc cont' (KB KC : cst -> Prop) :
  XK L loc cont rt fp lo m0 Q -> lab lbr = Some pb -> (cont' = true -> lab lct = Some pc) -> fp = lo + W * fs -> 0 <= fs -> slim <= lo <= STOP -> sep L lo ->
  (forall s, Q' OBreak s -> KB s) -> (forall s, Q' OContinue s -> KC s) -> (forall v s, Q' (OReturn v) s -> Q (OReturn v) s) ->
  (forall s' r' m' f', KB s' -> St L (cmem s') lo [] m0 r' m' -> wp F (MS r' m' (cb + pb) f' (cout s') (cin s') mp)) ->
  (cont' = true -> forall s' r' m' f', KC s' -> St L (cmem s') lo [] m0 r' m' -> wp F (MS r' m' (cb + pc) f' (cout s') (cin s') mp)) ->
  XK L (BLoop fs lbr lct :: loc) cont' rt fp lo m0 Q'.
Proof.
  intros (X1 & X2 & X3 & X4 & X5) Lb Lc Hfp Hfs Hlo Hsep H1 H2 H3 K1 K2. refine (conj _ (conj _ (conj _ (conj _ _)))); cbn [encl_any encl_loop].
  - intros bfs bl HE. apply Some_inj, pair_equal_spec in HE as [<- <-]. exact Hfs.
  - intros bfs bl HE. apply Some_inj, pair_equal_spec in HE as [<- <-]. exact Hfs.
  - intros s' r' m' f' bfs bl al HQ HE La HX Hr. apply Some_inj, pair_equal_spec in HE as [<- <-]. rewrite Lb in La. apply Some_inj in La. subst al.
    apply K1; auto. apply Xt_St; auto. lia.
  - intros Hc s' r' m' f' bfs bl al HQ HE La HX Hr. apply Some_inj, pair_equal_spec in HE as [<- <-]. rewrite (Lc Hc) in La. apply Some_inj in La. subst al.
    apply K2; auto. apply Xt_St; auto. lia.
  - intros. eapply X5; eauto.
Qed.
Lemma St_lim L mem base m0 r m : St L mem base [] m0 r m -> slim <= base <= STOP /\ sep L base.
Proof. intros H. pose proof (st_sp _ _ _ _ _ _ _ _ _ _ _ _ _ H) as E. cbn in E. pose proof (st_lo _ _ _ _ _ _ _ _ _ _ _ _ _ H). pose proof (st_hi _ _ _ _ _ _ _ _ _ _ _ _ _ H). pose proof (st_sep _ _ _ _ _ _ _ _ _ _ _ _ _ H). split; auto. lia. Qed.
Lemma s_while k e b : EX k e -> SX k b -> SX k (SWhile e b) -> SX (S k) (SWhile e b).
Proof.
  intros IE I1 I2. intros E s Q rt cont loc fp fs lb u code st' base m0 r m p f HC HS HG HV Hp H Hfp Hfs Hmx XX KN. pose proof HG as HG0. pose proof HS as HS0. pose proof Hp as Hp0.
  rewrite cs_eq in HC; rewrite ss_eq in HS; rewrite codegen_statement_eq in HG;
  unfold cs_body, ss_body, codegen_statement_body in HC, HS, HG; cbv beta iota zeta in HC, HS, HG;
  destruct st' as [? ?]. apply andb_true_iff in HS as [S1 S2]. mj.
  match goal with X : test _ _ ?l _ _ _ _ = _ |- _ => assert (HV' : VR (vars E) l fp) by (apply VR_loop, HV); pose proof (test_fs' _ _ _ _ _ _ _ _ _ _ _ _ HV' S1 X) as F1; rename X into G1 end.
  match goal with X : cgs _ b _ = _ |- _ => rename X into G2 end.
  cbn [app] in Hp. destruct Hp as [L1 Hp]. norm Hp. plc Hp Hp1. plc Hp Hp2. pose proof Hp as Hp3. nx Hp3. destruct Hp3 as [L2 _].
  destruct (St_lim _ _ _ _ _ _ H) as [Hlim Hsep].
  eapply test_ok; [exact IE|exact HC|exact S1|exact G1|exact HV'|exact Hp1|exact H|lia|auto|].
  clear H. intros vx s1 r1 m1 f1 al HQ H La. rewrite L2 in La. apply Some_inj in La. subst al. change (EQ =? EQ) with true. cbv iota. cbv beta in HQ.
  destruct (vx =? 0); [fin KN; eauto|].
  assert (AG : forall s' r' m' f', cs k E (SWhile e b) s' Q -> St (live E) (cmem s') base [] m0 r' m' -> wp F (MS r' m' (cb + p) f' (cout s') (cin s') mp)).
  { intros s' r' m' f' HQ' H'. eapply I2; [exact HQ'|exact HS0|exact HG0|exact HV|exact Hp0|exact H'|exact Hfp|exact Hfs|exact Hmx|exact XX|exact KN]. }
  eapply I1; [exact HQ|exact S2|exact G2|exact HV'|exact Hp2|exact H|lia|lia|exact Hmx| |].
  - eapply XK_loop; [exact XX|exact L2|intros _; exact L1|lia|lia|exact Hlim|exact Hsep| | | | |].
    + intros s' Hs. exact Hs.
    + intros s' Hs. exact Hs.
    + intros v s' Hs. exact Hs.
    + intros s' r' m' f' Hs H'. cbv beta in Hs. fin KN; eauto.
    + intros _ s' r' m' f' Hs H'. cbv beta in Hs. eapply AG; eauto.
  - clear H. intros s2 r2 m2 f2 HQ2 H. ap r_jump; [exact H|exact Hp|exact L1|]. eapply AG; eauto.
Qed.
Lemma s_do k e b : EX k e -> SX k b -> SX k (SDo b e) -> SX (S k) (SDo b e).
Proof.
  intros IE I1 I2. intros E s Q rt cont loc fp fs lb u code st' base m0 r m p f HC HS HG HV Hp H Hfp Hfs Hmx XX KN. pose proof HG as HG0. pose proof HS as HS0. pose proof Hp as Hp0.
  rewrite cs_eq in HC; rewrite ss_eq in HS; rewrite codegen_statement_eq in HG;
  unfold cs_body, ss_body, codegen_statement_body in HC, HS, HG; cbv beta iota zeta in HC, HS, HG;
  destruct st' as [? ?]. apply andb_true_iff in HS as [S1 S2]. mj.
  match goal with X : test _ _ ?l _ _ _ _ = _ |- _ => assert (HV' : VR (vars E) l fp) by (apply VR_loop, HV); rename X into G1 end.
  match goal with X : cgs _ b _ = _ |- _ => pose proof (ss_fs _ _ _ _ _ _ _ _ _ _ _ _ HV' S2 X) as F2; rename X into G2 end.
  cbn [app] in Hp. destruct Hp as [L1 Hp]. norm Hp. plc Hp Hp1. plc Hp Hp2. destruct Hp as [L2 _].
  destruct (St_lim _ _ _ _ _ _ H) as [Hlim Hsep].
  assert (AG : forall s' r' m' f', cs k E (SDo b e) s' Q -> St (live E) (cmem s') base [] m0 r' m' -> wp F (MS r' m' (cb + p) f' (cout s') (cin s') mp)).
  { intros s' r' m' f' HQ' H'. eapply I2; [exact HQ'|exact HS0|exact HG0|exact HV|exact Hp0|exact H'|exact Hfp|exact Hfs|exact Hmx|exact XX|exact KN]. }
  eapply I1; [exact HC|exact S2|exact G2|exact HV'|exact Hp1|exact H|lia|lia|exact Hmx| |].
  - eapply (XK_loop) with (pc := 0) (KC := fun _ => True); [exact XX|exact L2|discriminate|lia|lia|exact Hlim|exact Hsep| | | | |].
    + intros s' Hs. exact Hs.
    + intros s' Hs. exact I.
    + intros v s' Hs. exact Hs.
    + intros s' r' m' f' Hs H'. cbv beta in Hs. fin KN; eauto.
    + discriminate.
  - clear H. intros s2 r2 m2 f2 HQ2 H. cbv beta iota in HQ2.
    eapply test_ok; [exact IE|exact HQ2|exact S1|exact G1|exact HV'|exact Hp2|exact H|lia|auto|].
    clear H. intros vx s1 r1 m1 f1 al HQ H La. rewrite L1 in La. apply Some_inj in La. subst al. change (NE =? EQ) with false. cbv iota. cbv beta in HQ.
    destruct (vx =? 0); cbn [negb]; [fin KN; eauto|]. eapply AG; eauto.
Qed.
Lemma opt_ok k e : (forall j e, (j < k)%nat -> EX j e) -> forall E s Q loc fp fs lb u code st' base m0 r m p f,
  cs k E (match e with Some e => SExpr e | None => SSkip end) s Q -> sopt W funs (tys (vars E)) e = true -> codegen_opt W glo loc e (fs, lb) = Some (u, code, st') ->
  VR (vars E) loc fp -> placed p code -> St (live E) (cmem s) base [] m0 r m -> fp = base + W * fs ->
  (forall s' r' m' f', Q ONormal s' -> St (live E) (cmem s') base [] m0 r' m' ->
     wp F (MS r' m' (cb + (p + hsize code)) f' (cout s') (cin s') mp)) ->
  wp F (MS r m (cb + p) f (cout s) (cin s) mp).
Proof.
  intros IH E s Q loc fp fs lb u code st' base m0 r m p f HC HS HG HV Hp H Hfp KN. destruct k as [|k]; [exfalso; eapply cs_0; exact HC|].
  rewrite cs_eq in HC. unfold codegen_opt in HG. destruct e as [e|]; unfold cs_body in HC; cbv beta iota zeta in HC; destruct st'; unfold reg_X in *; mj.
  - cbn [sopt] in HS. fsx HV. norm Hp. plc Hp Hp1.
    eapply (IH k); [lia|exact HC|exact HS| |eassumption|exact HV|exact Hp1|exact H| |].
    + cbn. destruct HW; lia.
    + cbn. lia.
    + clear H. intros vx s1 w r1 m1 f1 HQ _ _ H. tpop H Hp r2 E2 Eq2. fin KN; eauto.
  - cbn [hsize] in KN. rewrite Z.add_0_r in KN. eapply KN; eauto.
Qed.
Definition FX (k : nat) (t st : option expr) (b : stmt) : Prop := forall E s Q rt cont loc fp fs base m0 r m f l1 l2 a1 a2 a3 u1 u2 u3 cst_ ct cb_ s1 s2 s3 p1 p3,
  let loc' := BLoop fs l2 l1 :: loc in
  cfor k E t st b s Q -> sopt W funs (tys (vars E)) st = true -> match t with Some t => supp W funs (tys (vars E)) Truth t | None => true end = true -> ss (tys (vars E)) rt true b = true ->
  codegen_opt W glo loc' st (fs, a1) = Some (u1, cst_, s1) -> match t with Some t => test W glo loc' t EQ l2 | None => ret tt end (fs, a2) = Some (u2, ct, s2) ->
  cgs loc' b (fs, a3) = Some (u3, cb_, s3) -> placed p1 cst_ -> p3 = p1 + hsize cst_ -> placed p3 (ct ++ cb_ ++ [HC (HJump l1); HD l2]) -> lab l1 = Some p1 ->
  VR (vars E) loc fp -> St (live E) (cmem s) base [] m0 r m -> fp = base + W * fs -> 0 <= fs -> fp + W < MOD ->
  XK (live E) loc cont rt fp base m0 Q ->
  (forall s' r' m' f', Q ONormal s' -> St (live E) (cmem s') base [] m0 r' m' ->
     wp F (MS r' m' (cb + (p3 + hsize (ct ++ cb_ ++ [HC (HJump l1); HD l2]))) f' (cout s') (cin s') mp)) ->
  wp F (MS r m (cb + p3) f (cout s) (cin s) mp).
Lemma f_for k t st b : (forall j e, (j <= k)%nat -> EX j e) -> SX k b -> FX k t st b -> FX (S k) t st b.
Proof.
  intros IE I1 I2 E s Q rt cont loc fp fs base m0 r m f l1 l2 a1 a2 a3 u1 u2 u3 cst_ ct cb_ s1 s2 s3 p1 p3 loc' HQ0 S1 S2 S3 G1 G2 G3 P1 E3 P3 L1 HV H Hfp Hfs Hmx XX KN.
  rewrite cfor_eq in HQ0. unfold cfor_body in HQ0; cbv beta iota zeta in HQ0.
  assert (HV' : VR (vars E) loc' fp) by (apply VR_loop, HV).
  assert (L2 : lab l2 = Some (p3 + hsize (ct ++ cb_ ++ [HC (HJump l1)]))).
  { pose proof P3 as P. rewrite !app_assoc in P. change [HC (HJump l1); HD l2] with ([HC (HJump l1)] ++ [HD l2]) in P. rewrite app_assoc in P. plc P P'. rewrite <- app_assoc in P. exact (proj1 P). }
  destruct (St_lim _ _ _ _ _ _ H) as [Hlim Hsep].
  assert (KB : forall s' r' m' f', Q ONormal s' -> St (live E) (cmem s') base [] m0 r' m' -> wp F (MS r' m' (cb + (p3 + hsize (ct ++ cb_ ++ [HC (HJump l1)]))) f' (cout s') (cin s') mp)).
  { intros. fin KN; eauto. }
  assert (AG : forall s' r' m' f', cs k E (match st with Some e => SExpr e | None => SSkip end) s' (fun _ s => cfor k E t st b s Q) ->
     St (live E) (cmem s') base [] m0 r' m' -> wp F (MS r' m' (cb + p1) f' (cout s') (cin s') mp)).
  { intros s' r' m' f' HQ' H'. eapply opt_ok; [|exact HQ'|exact S1|exact G1|exact HV'|exact P1|exact H'|exact Hfp|].
    - intros j e Hj. apply IE. lia.
    - intros s4 r4 m4 f4 HQ4 H4. rewrite <- E3. eapply I2; [exact HQ4|exact S1|exact S2|exact S3|exact G1|exact G2|exact G3|exact P1|exact E3|exact P3|exact L1|exact HV|exact H4|exact Hfp|exact Hfs|exact Hmx|exact XX|exact KN]. }
  assert (BODY : forall s' r' m' f', cs k E b s' (fun o s =>
      match o with
      | ONormal | OContinue => cs k E (match st with Some e => SExpr e | None => SSkip end) s (fun _ s => cfor k E t st b s Q)
      | OBreak => Q ONormal s
      | OReturn v => Q (OReturn v) s
      end) -> St (live E) (cmem s') base [] m0 r' m' -> wp F (MS r' m' (cb + (p3 + hsize ct)) f' (cout s') (cin s') mp)).
  { intros s' r' m' f' HQ' H'. pose proof P3 as P. plc P P'. plc P P''.
    eapply I1; [exact HQ'|exact S3|exact G3|exact HV'|exact P''|exact H'|exact Hfp|exact Hfs|exact Hmx| |].
    - eapply XK_loop; [exact XX|exact L2|intros _; exact L1|lia|lia|exact Hlim|exact Hsep| | | | |].
      + intros s4 Hs. exact Hs.
      + intros s4 Hs. exact Hs.
      + intros v s4 Hs. exact Hs.
      + intros s4 r4 m4 f4 Hs H4. cbv beta in Hs. eapply KB; eauto.
      + intros _ s4 r4 m4 f4 Hs H4. cbv beta in Hs. eapply AG; eauto.
    - intros s4 r4 m4 f4 Hs H4. ap r_jump; [exact H4|exact P|exact L1|]. eapply AG; eauto. }
  destruct t as [t|].
  - pose proof P3 as P. plc P P'.
    eapply test_ok; [apply (IE k); lia|exact HQ0|exact S2|exact G2|exact HV'|exact P'|exact H|exact Hfp|auto|].
    clear H. intros vx s4 r4 m4 f4 al HQ H La. rewrite L2 in La. apply Some_inj in La. subst al. change (EQ =? EQ) with true. cbv iota. cbv beta in HQ.
    destruct (vx =? 0); [eapply KB|eapply BODY]; eauto.
  - apply ret_inv in G2 as (_ & -> & _). cbn [hsize] in BODY. rewrite Z.add_0_r in BODY. destruct k as [|k]; [exfalso; eapply ce_0; exact HQ0|].
    rewrite ce_eq in HQ0. unfold ce_body in HQ0; cbv beta iota zeta in HQ0. destruct HQ0 as [_ HQ0]. change (1 =? 0) with false in HQ0. cbv iota in HQ0. eapply BODY; eauto.
Qed.
Lemma s_for k i t st b : (forall j e, (j <= k)%nat -> EX j e) -> FX k t st b -> SX (S k) (SFor i t st b).
Proof.
  intros IE I2. case1. apply andb_true_iff in HS as [HS S3]. apply andb_true_iff in HS as [HS S2]. apply andb_true_iff in HS as [S0 S1].
  mj.
  match goal with X : codegen_opt _ _ ?l i _ = _ |- _ => assert (HV' : VR (vars E) l fp) by (apply VR_loop, HV); pose proof (opt_fs' _ _ _ _ _ _ _ _ _ _ HV' S0 X) as F0; rename X into G0 end.
  match goal with X : codegen_opt _ _ _ st _ = _ |- _ => pose proof (opt_fs' _ _ _ _ _ _ _ _ _ _ HV' S1 X) as F1; rename X into G1 end.
  match goal with X : match t with _ => _ end _ = Some (_, _, (?x, _)) |- _ => assert (x = fs);
    [destruct t as [t|]; [pose proof (test_fs' _ _ _ _ _ _ _ _ _ _ _ _ HV' S2 X); lia|apply ret_inv in X as (_ & _ & X); apply pair_equal_spec in X; lia]|rename X into G2] end.
  match goal with X : cgs _ b _ = _ |- _ => rename X into G3 end. subst.
  cbn [app] in Hp. norm Hp. plc Hp Hp1. pose proof Hp as Hp2. nx Hp. destruct Hp as [L1 Hp]. plc Hp Hp3. destruct Hp as [L3 Hp].
  eapply (opt_ok k); [intros; apply IE; lia|exact HC|exact S0|exact G0|exact HV'|exact Hp1|exact H|lia|]. clear H. intros s1 r1 m1 f1 HQ H. cbv beta in HQ.
  ap r_jump; [exact H|exact Hp2|exact L3|].
  eapply I2; [exact HQ|exact S1|exact S2|exact S3|exact G1|exact G2|exact G3|exact Hp3|reflexivity|exact Hp|exact L1|exact HV|exact H|reflexivity|exact Hfs|exact Hmx|exact XX|].
  clear H. intros s2 r2 m2 f2 HQ2 H. fin KN; eauto.
Qed.
Lemma r_grow L mem base m0 r m d p kk f o i : St L mem base [] m0 r m -> placed p (NMach.HC (HAddImm 4 d) :: kk) -> base + d < MOD ->
  (forall r', Xt L mem base m0 r' m -> r' 4 = base + d -> slim <= r' 4 -> (forall q, q <> 4 -> r' q = r q) -> wp F (MS r' m (cb + (p + ilen W (HAddImm 4 d))) None o i mp)) ->
  wp F (MS r m (cb + p) f o i mp).
Proof.
  intros H Hp Hd K. pose proof (st_sp _ _ _ _ _ _ _ _ _ _ _ _ _ H) as E. cbn in E. rewrite Z.sub_0_r in E || idtac.
  assert (E4 : r 4 = base) by (rewrite E; change (zlen (@nil Z)) with 0; lia).
  eapply wp_growsp; [apply (st_code _ _ _ _ _ _ _ _ _ _ _ _ _ H)|exact Hp|apply (st_lo _ _ _ _ _ _ _ _ _ _ _ _ _ H)|lia|lia|].
  intros Hl. apply K; [apply Xt_sp; [eapply Xt_of; exact H|lia]|rewrite upd_same; lia|rewrite upd_same; lia|intros; apply upd_other; congruence].
Qed.
Lemma s_break k : SX (S k) SBreak.
Proof.
  case1. destruct (encl_any loc) as [[bfs bl]|] eqn:Eb; [|mi]. unfold reg_SP in *. mj. destruct XX as (X1 & _ & X3 & _). pose proof (X1 _ _ Eb).
  pose proof (st_code _ _ _ _ _ _ _ _ _ _ _ _ _ H) as Hcd. norm Hp. pose proof Hp as Hp2. nx Hp2. destruct (lab1' _ _ _ _ _ Hp2 Hcd eq_refl) as [al La].
  eapply r_grow; [exact H|exact Hp|destruct HW; nia|]. intros r' Hx E4 _ _. 
  eapply wp_jump; [exact Hcd|exact Hp2|exact La|]. eapply X3; [exact HC|exact Eb|exact La|exact Hx|lia].
Qed.
Lemma s_continue k : SX (S k) SContinue.
Proof.
  case1. destruct (encl_loop loc) as [[bfs bl]|] eqn:Eb; [|mi]. unfold reg_SP in *. mj. destruct XX as (_ & X1 & _ & X3 & _). pose proof (X1 _ _ Eb).
  pose proof (st_code _ _ _ _ _ _ _ _ _ _ _ _ _ H) as Hcd. norm Hp. pose proof Hp as Hp2. nx Hp2. destruct (lab1' _ _ _ _ _ Hp2 Hcd eq_refl) as [al La].
  eapply r_grow; [exact H|exact Hp|destruct HW; nia|]. intros r' Hx E4 _ _. 
  eapply wp_jump; [exact Hcd|exact Hp2|exact La|]. eapply X3; [exact HS|exact HC|exact Eb|exact La|exact Hx|lia].
Qed.
Lemma r_return L mem base m0 r m p kk f fs fp (s : cst) v rt Q : mem = cmem s -> St L mem base [] m0 r m -> placed p (NMach.HC (HAddImm 4 (- - fs * W)) :: NMach.HC HRet :: kk) -> fp = base + W * fs -> 0 <= fs -> fp + W < MOD ->
  Q (OReturn v) s -> rep (Mod (Rk rt)) (r 0) (conv W rt v) -> inr_ W rt (conv W rt v) ->
  (forall v s' r' m' f', Q (OReturn v) s' -> Xt L (cmem s') base m0 r' m' -> r' 4 = fp + W ->
     rep (Mod (Rk rt)) (r' 0) (conv W rt v) -> inr_ W rt (conv W rt v) ->
     wp F (MS r' m' (rd (Wn W) m' fp) f' (cout s') (cin s') mp)) ->
  wp F (MS r m (cb + p) f (cout s) (cin s) mp).
Proof.
  intros -> H Hp Hfp Hfs Hmx HQ Rp Ir K. pose proof (st_code _ _ _ _ _ _ _ _ _ _ _ _ _ H) as Hcd. destruct (St_lim _ _ _ _ _ _ H) as [Hlim _].
  assert (WP : 0 < W) by (destruct HW; lia).
  eapply r_grow; [exact H|exact Hp|nia|]. intros r' Hx E4 _ Eq. nx Hp. assert (r' 4 = fp) by lia.
  eapply wp_ret; [exact Hcd|exact Hp|nia|]. rewrite H0. eapply K; [exact HQ|apply Xt_sp; [exact Hx|nia]|apply upd_same| |exact Ir].
  rewrite upd_other by discriminate. rewrite Eq by discriminate. exact Rp.
Qed.
Lemma s_return k e : (forall j e, (j <= k)%nat -> EX j e) -> SX (S k) (SReturn e).
Proof.
  intros IE. case1. destruct XX as (_ & _ & _ & _ & X5). unfold codegen_opt, reg_X, reg_SP in HG. destruct e as [e|].
  - assert (exists t, ctype W funs (tys (vars E)) e = Some t /\ wfty W t = true /\ wfty W rt = true /\ scalar rt = true /\ conv_ok W W t rt = true /\ supp W funs (tys (vars E)) (Mod W) e = true /\ Rk rt = W) as (t & Ct & W1 & W2 & Sc & Co & S1 & Er).
    { destruct rt; destruct (ctype W funs (tys (vars E)) e) as [t|]; try discriminate; exists t; repeat (apply andb_true_iff in HS as [HS ?]); auto 8. }
    clear HS. unfold codegen_opt in HG. mj. fsx HV. norm Hp. plc Hp Hp1.
    eapply (IE k); [lia|exact HC|exact S1| |eassumption|exact HV|exact Hp1|exact H|cbn; lia|]; [cbn; destruct HW; lia|].
    clear H; intros vx s1 w r1 m1 f1 HQ Vk Rx H; tpop H Hp r2 E2 Eq2.
    assert (Ix : inr_ W t vx) by (destruct Vk as [Vk _]; apply Vk; exact Ct).
    eapply r_return with (v := vx); [reflexivity|exact H|exact Hp| | | |exact HQ| | |exact X5].
    + lia.
    + lia.
    + lia.
    + rewrite Er, E2. apx conv_rep; [exact Co|exact W1|exact W2|exact Sc|exact Ix|destruct HW; lia|exact Rx].
    + apply conv_inr; auto. apx sc_ge1; auto.
  - destruct rt; try discriminate. unfold codegen_opt in HG. mj. norm Hp.
    eapply r_return with (v := 0) (fp := fp) (rt := TVoid); [reflexivity|exact H|exact Hp|lia|lia|lia|exact HC|cbn [Rk rep]; apx eqm0|exact I|exact X5].
Qed.
Lemma s_block k l : IX k l -> SX (S k) (SBlock l).
Proof.
  intros I1. case1. mj. unfold reg_SP in *.
  eapply XK_imp with (R := Q) in XX; [|auto]. norm Hp. plc Hp Hp1. pose proof (St_lim _ _ _ _ _ _ H) as [Hlim Hsep].
  eapply I1; [exact HC|exact HS|eassumption|exact HV|exact Hp1|exact H|exact Hfp|exact Hfs|exact Hmx|exact XX|].
  clear H. intros s1 r1 m1 f1 HQ Hx E4 Hl. pose proof (xt_code _ _ _ _ _ _ Hx) as Hcd. pose proof (MOD_pos W HW).
  eapply wp_growsp; [exact Hcd|exact Hp|exact Hl|lia|rewrite E4; lia|]. intros Hl'. fin KN; [exact HQ|].
  rewrite E4 in *. apply Xt_St; [apply Xt_sp; [exact Hx|lia]|exact Hlim|exact Hsep|rewrite upd_same; lia].
Qed.
(** The environment of a declaration. *)
Lemma VR_local V loc fp x fs t a : VR V loc fp -> a = fp - fs * W -> 0 <= a < MOD -> VR ((x, (a, t)) :: V) (BLocal x fs t :: loc) fp.
Proof.
  intros HV Ea Ra y b u Hy. cbn [lookupZ] in Hy. unfold at_var. cbn [look_loc]. destruct (y =? x) eqn:Ey.
  - apply Some_inj, pair_equal_spec in Hy as [<- <-]. split; [|exact Ra]. right. left. exists x, fs. auto.
  - apply HV in Hy. exact Hy.
Qed.
Lemma XK_decl L loc cont rt fp lo m0 m1 Q x fs t a n : FR L lo m0 m1 -> slim <= a -> a + n <= lo -> 0 <= n ->
  XK L loc cont rt fp lo m0 Q -> XK ((a, n) :: L) (BLocal x fs t :: loc) cont rt fp a m1 Q.
Proof.
  intros H1 H2 H3 H4 (X1 & X2 & X3 & X4 & X5). refine (conj _ (conj _ (conj _ (conj _ _)))); cbn [encl_any encl_loop]; auto.
  - intros. eapply X3; eauto. eapply Xt_decl; eauto.
  - intros. eapply X4; eauto. eapply Xt_decl; eauto.
  - intros. eapply X5; eauto. eapply Xt_decl; eauto.
Qed.
Lemma i_nil k : IX (S k) INil.
Proof.
  intros E s Q rt cont loc fp fs lb u code fs' lb' base m0 r m p f HC HS HG HV Hp H Hfp Hfs Hmx XX KN.
  rewrite ci_eq in HC; rewrite codegen_items_eq in HG; unfold ci_body, codegen_items_body in HC, HG; cbv beta iota zeta in HC, HG. mj.
  cbn [hsize] in KN. rewrite Z.add_0_r in KN. pose proof (st_sp _ _ _ _ _ _ _ _ _ _ _ _ _ H) as E4. change (zlen (@nil Z)) with 0 in E4.
  eapply KN; [exact HC|eapply Xt_of; exact H|lia|apply (st_lo _ _ _ _ _ _ _ _ _ _ _ _ _ H)].
Qed.
Lemma i_stmt k c l : SX k c -> IX k l -> IX (S k) (IStmt c l).
Proof.
  intros I1 I2 E s Q rt cont loc fp fs lb u code fs' lb' base m0 r m p f HC HS HG HV Hp H Hfp Hfs Hmx XX KN.
  rewrite ci_eq in HC; rewrite codegen_items_eq in HG; rewrite si_eq in HS; unfold ci_body, codegen_items_body, si_body in HC, HG, HS; cbv beta iota zeta in HC, HG, HS.
  apply andb_true_iff in HS as [S1 S2]. mj.
  match goal with X : cgs _ c _ = _ |- _ => pose proof (ss_fs _ _ _ _ _ _ _ _ _ _ _ _ HV S1 X) as F2; rename X into G2 end. subst.
  norm Hp. plc Hp Hp1. eapply I1; [exact HC|exact S1|exact G2|exact HV|exact Hp1|exact H|reflexivity|exact Hfs|exact Hmx| |].
  - eapply XK_imp; [|exact XX]. intros [| | |v] s' Hn Hs; [congruence|exact Hs..].
  - clear H. intros s1 r1 m1 f1 HQ H. cbv beta iota in HQ.
    eapply I2; [exact HQ|exact S2|eassumption|exact HV|exact Hp|exact H|reflexivity|exact Hfs|exact Hmx|exact XX|].
    intros s2 r2 m2 f2 HQ2 Hx E4 Hl. fin KN; eauto.
Qed.
Lemma i_decl k x t i l : (forall j e, (j <= k)%nat -> EX j e) -> IX k l -> IX (S k) (IDecl x t i l).
Proof.
  intros IE I2 E s Q rt cont loc fp fs lb u code fs' lb' base m0 r m p f HC HS HG HV Hp H Hfp Hfs Hmx XX KN.
  rewrite ci_eq in HC; rewrite codegen_items_eq in HG; rewrite si_eq in HS; unfold ci_body, codegen_items_body, si_body in HC, HG, HS; cbv beta iota zeta in HC, HG, HS.
  apply andb_true_iff in HS as [HS S2]. apply andb_true_iff in HS as [HS S1]. apply andb_true_iff in HS as [Wt Sc].
  destruct (local_pos W HW t Wt Sc) as (Lp & Lc & L1). destruct HC as [Hn HC]. set (n := csize W t) in *. set (ls := local_size W t) in *. mj. unfold reg_SP in *. cbn [fst snd] in *.
  pose proof (st_sp _ _ _ _ _ _ _ _ _ _ _ _ _ H) as E4. change (zlen (@nil Z)) with 0 in E4. assert (Er : r 4 = base) by lia. clear E4.
  destruct (St_lim _ _ _ _ _ _ H) as [Hlim Hsep]. pose proof (st_fr _ _ _ _ _ _ _ _ _ _ _ _ _ H) as Hfr. assert (WP : 0 < W) by (destruct HW; lia).
  cbn [app] in Hp. pose proof (st_code _ _ _ _ _ _ _ _ _ _ _ _ _ H) as Hcd. assert (0 < W * ls) by nia.
  eapply wp_growsp; [exact Hcd|exact Hp|lia|lia|lia|]. intros Hl. rewrite Er in *. nx Hp.
  set (a := base + - ls * W) in *. assert (Ea : a = base - W * ls) by (unfold a; lia).
  assert (Fr : fresh W (live E) a n).
  { split; [lia|]. split; [lia|]. intros y Hy. eapply (sep_nl W slim STOP cb bytes HW Hslim Hstop Hdis); [exact Hsep|lia]. }
  set (m' := fun y => if (a <=? y) && (y <? a + n) then m y else cmem s y).
  assert (Bm : bytes_ok m').
  { intros y. unfold m'. destruct ((a <=? y) && (y <? a + n)); [apply (st_bytes _ _ _ _ _ _ _ _ _ _ _ _ _ H)|apply (st_cb _ _ _ _ _ _ _ _ _ _ _ _ _ H)]. }
  specialize (HC a Fr m' Bm). assert (Hm' : forall y, ~ (a <= y < a + n) -> m' y = cmem s y).
  { intros y Hy. unfold m'. destruct (Z.leb_spec a y), (Z.ltb_spec y (a + n)); cbn [andb]; auto. lia. }
  specialize (HC Hm'). set (E' := Env ((x, (a, t)) :: vars E) ((a, n) :: live E)) in *.
  assert (H2 : St (live E') m' a [] m (upd r 4 a) m).
  { destruct H as [A1 A2 A3 A4 A5 A6 A7 A8 A9 A10 A11 A12]. constructor; auto.
    - apply regs_upd; auto. lia.
    - rewrite upd_same. cbn. lia.
    - lia.
    - intros y [b [[<-|Hb] Hy]]; cbn [fst snd] in Hy; unfold m'.
      + destruct (Z.leb_spec a y), (Z.ltb_spec y (a + n)); cbn [andb]; auto; lia.
      + destruct ((a <=? y) && (y <? a + n)); auto. apply A9. exists b; auto.
    - intros y [b [[<-|Hb] Hy]]; cbn [fst snd] in Hy.
      + split; [lia|]. lia.
      + destruct (A10 y) as [B1 B2]; [exists b; auto|]. split; [lia|exact B2].
    - intros y _ _. reflexivity. }
  assert (Ra : 0 <= a < MOD) by lia.
  assert (HV' : VR (vars E') (BLocal x (fs + ls) t :: loc) fp) by (apply VR_local; [exact HV|lia|exact Ra]).
  assert (XX' : XK (live E') (BLocal x (fs + ls) t :: loc) cont rt fp a m Q) by (eapply XK_decl; [exact Hfr|lia|lia|lia|exact XX]).
  clear H.
  destruct i as [e|].
  - apply andb_true_iff in S1 as [S1 Se]. apply andb_true_iff in S1 as [Sct _].
    match goal with X : (if _ then _ else _) _ = Some _ |- _ => destruct (is_agg t) eqn:Ia; [discriminate X|] end. mj. unfold reg_X in *. 
    match goal with X : codegen_rvalue _ _ _ _ _ = Some (_, _, (?b, _)) |- _ => assert (b = fs + ls + 1) by (eapply rvf'; [exact HV'|exact Se|exact X]); rename X into GE end.
    norm Hp. plc Hp Hp1. assert (Tw : type_width W t true false = n) by (unfold type_width; rewrite width_true; reflexivity). rewrite Tw in *.
    assert (Sz : 1 <= csize W t <= W) by (apx sc_size; auto).
    eapply (IE k) with (s := setmem s m'); [lia|exact HC|exact Se| |exact GE|exact HV'|exact Hp1|exact H2| |].
    + cbn. lia.
    + change (zlen (@nil Z)) with 0. lia.
    + clear H2. intros vx s1 w r1 m1 f1 HQ Vk Rx H2. tpop H2 Hp r2 E2 Eq2. cbv beta in HQ.
      pose proof (st_sp _ _ _ _ _ _ _ _ _ _ _ _ _ H2) as E4. change (zlen (@nil Z)) with 0 in E4.
      apx r_write; [exact H2|reflexivity|reflexivity|exact Wt| |exact Ra| |exact HQ|exact Hp|].
      * lia.
      * rewrite E2. exact Rx.
      * clear H2. intros s2 m2 HQ2 Eo Ei H2. nx Hp. rewrite <- Eo, <- Ei.
        eapply I2; [exact HQ2|exact S2| |exact HV'|exact Hp|exact H2| | |exact Hmx|exact XX'|].
        -- match goal with X : cgi _ _ _ = _ |- _ => replace (fs + ls + 1 + -1) with (fs + ls) in X by lia; exact X end.
        -- lia.
        -- lia.
        -- intros s3 r3 m3 f3 HQ3 Hx E5 Hl3. fold n. fin KN; [exact HQ3| |exact E5|exact Hl3]. eapply Xt_decl; [exact Hfr| | | |exact Hx]; lia.
  - mj. eapply I2 with (s := setmem s m'); [exact HC|exact S2|eassumption|exact HV'|exact Hp|exact H2|lia|lia|exact Hmx|exact XX'|].
    intros s3 r3 m3 f3 HQ3 Hx E5 Hl3. fin KN; [exact HQ3| |exact E5|exact Hl3]. eapply Xt_decl; [exact Hfr| | | |exact Hx]; lia.
Qed.
End X.
