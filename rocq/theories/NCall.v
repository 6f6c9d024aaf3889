(** * Calls of user functions *)
From Coq Require Import ZArith List Lia Bool.
From Verif Require Import Base Asm AsmProof X86 X86Proof X86Sem NMach NPtr CLang NGen NSupp NBin NRun NBop NEqs NStat NJudge NExpr NExpr2 NExpr3 NExpr4 NStat2 NStmt NSwitch.
Import ListNotations.
Open Scope Z_scope.

Section X.
Variables (W slim STOP cb GB : Z) (bytes : list Z) (lab : Z -> option Z).
Variables (funs : cdecls) (gvars : list (Z * (Z * ty))) (glo : list gbnd) (F : mst -> Prop) (mp : list Z).
Hypothesis HW : W = 4 \/ W = 8.
Hypothesis Hslim : 0 < slim.
Hypothesis Hstop : STOP < MOD W.
Hypothesis Hdis : STOP <= cb \/ cb + zlen bytes <= slim.
Hypothesis Hcb : 0 <= cb /\ cb + zlen bytes <= MOD W.
Hypothesis HF : decl_ok funs glo.
Set Default Proof Using "HW Hslim Hstop Hdis Hcb HF gvars".
Notation placed := (placed W cb bytes lab).
Notation hsize := (hsize W).
Notation wp := (wp W slim).
Notation MOD := (MOD W).
Notation St := (St W slim STOP cb GB bytes).
Notation EX := (EX W slim STOP cb GB bytes lab funs gvars glo F mp).
Notation LX := (LX W slim STOP cb GB bytes lab funs gvars glo F mp).
Notation AX := (AX W slim STOP cb GB bytes lab funs gvars glo F mp).
Notation CX := (CX W slim STOP cb GB bytes lab funs gvars glo F mp).
Notation VR := (VR W GB glo).
Notation vok := (vok W funs).
Ltac ap R ::= eapply R; [exact HW|exact Hslim|exact Hstop|exact Hdis|..].
Ltac apx R ::= eapply R; [exact HW|exact Hslim|exact Hstop|exact Hdis|exact Hcb|exact HF|..].
Notation cs := (cs W funs gvars).
Notation cw := (cw W funs gvars).
Notation sep := (sep slim cb bytes).
Notation FR := (FR slim).
Notation ss := (ss W funs).
Notation sw := (sw W funs).
Notation cgs := (codegen_statement W glo).
Notation cgw := (codegen_swl W glo).
Notation Xt := (Xt W slim cb GB bytes).
Notation XK := (XK W slim cb GB bytes lab F mp).
Notation SX := (SX W slim STOP cb GB bytes lab funs gvars glo F mp).
Ltac plc Hp Hp1 := apply (placed_app _ _ _ _ HW) in Hp as [Hp1 Hp].
Notation IX := (IX W slim STOP cb GB bytes lab funs gvars glo F mp).
Definition okp (ps : list (Z * ty)) : bool := forallb (fun p => wfty W (snd p) && scalar (snd p)) ps.
Lemma sc_words t : wfty W t = true -> scalar t = true -> 1 <= csize W t <= W /\ type_width W t false true / W = 1 /\ is_arr t = false.
Proof.
  intros Hw Hs. assert (C : 1 <= csize W t <= W).
  { destruct t; try discriminate; cbn [csize]; [|destruct HW; lia]. apply (wf_int W HW) in Hw. unfold isz in Hw. destruct HW; subst W; lia. }
  split; [exact C|]. pose proof (scalar_arr _ Hs) as Ha. split; [|exact Ha]. unfold type_width. rewrite (width_csize W t Ha). unfold word_size_align.
  rewrite Z.div_mul by (destruct HW; lia). symmetry. apply Z.div_unique with (r := csize W t - 1); lia.
Qed.
Lemma wrb_rd_self k : forall n m a x, bytes_ok m -> (k <= n)%nat -> wrb k m a (rd n m a) x = m x.
Proof.
  clear. induction k as [|k IH]; intros [|n] m a x Hb Hk; cbn [wrb]; try reflexivity; try lia. cbn [rd].
  assert (E1 : (m a + 256 * rd n m (a + 1)) mod 256 = m a). { rewrite Z.mul_comm, Z_mod_plus_full. apply Z.mod_small, Hb. }
  assert (E2 : (m a + 256 * rd n m (a + 1)) / 256 = rd n m (a + 1)). { rewrite Z.mul_comm, Z_div_plus_full by lia. rewrite Z.div_small by apply Hb. lia. }
  rewrite E1, E2. destruct (Z.eq_dec x a) as [->|Hn].
  - rewrite wrb_out by lia. apply upd_same.
  - destruct (Z_lt_dec x a); [rewrite wrb_out by lia; apply upd_other; lia|].
    rewrite <- (IH n m (a + 1) x Hb) by lia. destruct (Z_lt_dec x (a + 1 + Z.of_nat k)) as [Hc|Hc].
    + apply wrb_cong; [reflexivity|lia].
    + rewrite !wrb_out by lia. apply upd_other. lia.
Qed.
(** Bytes of a word and of the value it represents. *)
Lemma storev_word t m mm a v w x : wfty W t = true -> scalar t = true -> bytes_ok mm -> rd (Wn W) mm a = w -> rep (Mod (csize W t)) w v ->
  a <= x < a + csize W t -> mm x = storev W t m a v x.
Proof.
  intros Hw Hs Hb Ew Rw Hx. destruct (sc_words t Hw Hs) as (C & _). unfold storev.
  rewrite <- (wrb_cong _ mm m a w v); [|rewrite pow256 by lia; exact Rw|rewrite Z2Nat.id by lia; exact Hx].
  subst w. symmetry. apply wrb_rd_self; [exact Hb|]. unfold Wn. lia.
Qed.
Lemma bind_ok ps : forall vs V L m (K : list (Z * (Z * ty)) -> list (Z * Z) -> (Z -> Z) -> Prop) ws fp i loc loc' mm base,
  bindp W ps vs V L m K -> arep W (map snd ps) vs ws -> okp ps = true -> add_params W ps (- 1 - i) loc = Some loc' ->
  stk W mm (fp + W * (1 + i)) ws -> slim <= fp -> fp + W * (1 + i + zlen ws) <= base -> base <= STOP -> 0 <= i -> bytes_ok mm -> bytes_ok m ->
  sep L (fp + W) -> (forall x, inlive L x -> ~ (fp + W * (1 + i) <= x < base)) -> (forall x, inlive L x -> mm x = m x) -> VR V loc fp -> encl_any loc = None -> encl_loop loc = None ->
  exists V' L' m', K V' L' m' /\ sep L' (fp + W) /\ (forall x, inlive L' x -> inlive L x \/ fp + W * (1 + i) <= x < base) /\ (forall x, inlive L x -> inlive L' x) /\
    (forall x, inlive L' x -> mm x = m' x) /\ bytes_ok m' /\ VR V' loc' fp /\ encl_any loc' = None /\ encl_loop loc' = None /\ tys V' = rev ps ++ tys V.
Proof.
  assert (WP : 0 < W) by (destruct HW; lia).
  induction ps as [|[x t] ps IH]; intros vs V L m K ws fp i loc loc' mm base HB HA Ho Hp Hs Hfp Hba Hst Hi Hmm Hm S1 S2 S3 HV E1 E2.
  - destruct vs; [|contradiction]. destruct ws; [|contradiction]. cbn [bindp] in HB. cbn [add_params] in Hp. apply Some_inj in Hp. subst loc'.
    exists V, L, m. repeat (split; [auto; fail|]). reflexivity.
  - destruct vs as [|v vs]; [contradiction|]. destruct ws as [|w ws]; [contradiction|]. cbn [bindp] in HB. destruct HB as [Hsc HB]. cbn [map snd arep] in HA. destruct HA as [HA1 HA].
    cbn [okp forallb snd] in Ho. apply andb_true_iff in Ho as [Hw Ho]. apply andb_true_iff in Hw as [Hw _]. destruct (sc_words t Hw Hsc) as (C & Tw & Ta).
    cbn [add_params] in Hp. replace (match t with TArr t0 _ => TPtr t0 | _ => t end) with t in Hp by (destruct t; reflexivity || discriminate).
    destruct (look_loc x loc) eqn:Lx; [discriminate|]. rewrite Tw in Hp. cbn [stk] in Hs. destruct Hs as [Hs1 Hs]. rewrite zlen_cons in Hba. pose proof (zlen_nonneg ws) as Zw.
    set (a := fp + W * (1 + i)) in *.
    assert (Ha : slim + W <= a /\ a + W <= base /\ fp + W <= a) by (unfold a; nia). assert (Cn : base < MOD) by lia.
    assert (Fr : fresh W L a (csize W t)). { split; [lia|]. split; [lia|]. intros y Hy Hl. apply (S2 y Hl). lia. }
    specialize (HB a Fr).
    destruct (IH vs _ _ _ K ws fp (i + 1) (BParam x (- 1 - i) t :: loc) loc' mm base HB HA Ho) as (V' & L' & m' & A1 & A2 & A3 & A4 & A5 & A6 & A7 & A8 & A9 & A10).
    + replace (- 1 - (i + 1)) with (- 1 - i - 1) by lia. exact Hp.
    + replace (fp + W * (1 + (i + 1))) with (a + W) by (unfold a; ring). exact Hs.
    + exact Hfp.
    + nia.
    + exact Hst.
    + lia.
    + exact Hmm.
    + unfold storev. now apply wrb_bytes.
    + intros y [b [[<-|Hb] Hy]]; cbn [fst snd] in *; [|apply S1; exists b; auto]. split; [right; lia|]. lia.
    + intros y [b [[<-|Hb] Hy]]; cbn [fst snd] in *; [unfold a in *; nia|]. assert (Hl : inlive L y) by (exists b; auto). specialize (S2 y Hl). unfold a in *. nia.
    + intros y Hy. destruct (Z_lt_dec y a) as [Hlt|Hlt]; [|destruct (Z_lt_dec y (a + csize W t)) as [Hlt2|Hlt2]].
      * unfold storev. rewrite wrb_out by lia. apply S3. destruct Hy as [b [[<-|Hb] Hy]]; cbn [fst snd] in *; [lia|exists b; auto].
      * eapply storev_word; [exact Hw|exact Hsc|exact Hmm|exact Hs1|exact HA1|lia].
      * unfold storev. rewrite wrb_out by (rewrite Z2Nat.id; lia). apply S3. destruct Hy as [b [[<-|Hb] Hy]]; cbn [fst snd] in *; [lia|exists b; auto].
    + intros y b u Hy. cbn [lookupZ] in Hy. unfold at_var. cbn [look_loc]. destruct (y =? x) eqn:Ey.
      * apply Some_inj, pair_equal_spec in Hy as [<- <-]. split; [|lia]. left. exists x, (- 1 - i). split; [reflexivity|]. split; [exact Ta|unfold a; ring].
      * apply HV in Hy. exact Hy.
    + exact E1.
    + exact E2.
    + exists V', L', m'. split; [exact A1|]. split; [exact A2|]. split.
      { intros y Hy. destruct (A3 y Hy) as [[b [[<-|Hb] Hy']]|Hy']; cbn [fst snd] in *; [right; lia|left; exists b; auto|right; unfold a in *; nia]. }
      split. { intros y [b [Hb Hy]]. apply A4. exists b. split; [now right|exact Hy]. }
      do 5 (split; [assumption|]). rewrite A10. cbn [rev tys map fst snd]. rewrite <- app_assoc. reflexivity.
Qed.
(** What is assumed of the rest of the program: every user function of the C program is compiled somewhere in the code, and
    passes the static check. *)
Definition fun_ok (g : Z) : Prop := forall ps rt body lb t, funs g = Some (FUser ps rt body) -> look_fun g glo = Some (lb, t) ->
  okp ps = true /\ si W funs (rev ps ++ tys gvars) rt false body = true /\
  exists s0 u code s' p, codegen_fun W glo lb ps body s0 = Some (u, code, s') /\ placed p code.
Lemma VR_fp V fp fp' : VR V [] fp -> VR V [] fp'.
Proof.
  intros HV x a t Hx. destruct (HV x a t Hx) as [HA Ha]. split; [|exact Ha]. destruct HA as [(y & off & H & _)|[(y & off & H & _)|H]]; [discriminate|discriminate|]. right. right. exact H.
Qed.
Definition CXg (k : nat) (g : Z) : Prop := forall L vs s Q lb t a base ra ws' ws m0 r mm f,
  ccall W funs gvars k L g vs s Q -> look_fun g glo = Some (lb, t) -> lab lb = Some a -> arep W (ptys funs g) vs ws' ->
  St L (cmem s) base (ra :: ws' ++ ws) m0 r mm ->
  (forall v s' ws'' r' m' f', Q v s' -> zlen ws'' = zlen ws' -> inr_ W (rty funs g) v -> rep (Mod (fk W funs g)) (r' 0) v ->
     St L (cmem s') base (ws'' ++ ws) m0 r' m' -> wp F (MS r' m' ra f' (cout s') (cin s') mp)) ->
  wp F (MS r mm (cb + a) f (cout s) (cin s) mp).
Fixpoint rds (m : Z -> Z) (a : Z) (n : nat) : list Z := match n with O => [] | S n => rd (Wn W) m a :: rds m (a + W) n end.
Lemma rds_stk m n : forall a, stk W m a (rds m a n).
Proof. induction n; intros a; cbn [rds stk]; auto. Qed.
Lemma rds_len m n : forall a, zlen (rds m a n) = Z.of_nat n.
Proof. induction n; intros a; cbn [rds]; [reflexivity|]. rewrite zlen_cons, IHn. lia. Qed.
Lemma c_fun k ps rt body lb : okp ps = true -> si W funs (rev ps ++ tys gvars) rt false body = true ->
  (exists s0 u code s' p, codegen_fun W glo lb ps body s0 = Some (u, code, s') /\ placed p code) -> VR gvars [] 0 -> IX k body ->
  forall L vs s Q a base ra ws' ws m0 r mm f,
  bindp W ps vs gvars L (cmem s) (fun V L m => ci W funs gvars k (Env V L) body (setmem s m) (fun o s =>
    match o with OReturn v => Q (conv W rt v) s | ONormal => rt = TVoid /\ Q 0 s | _ => False end)) ->
  lab lb = Some a -> arep W (map snd ps) vs ws' ->
  St L (cmem s) base (ra :: ws' ++ ws) m0 r mm ->
  (forall v s' ws'' r' m' f', Q v s' -> zlen ws'' = zlen ws' -> inr_ W rt v -> rep (Mod (Rk W rt)) (r' 0) v ->
     St L (cmem s') base (ws'' ++ ws) m0 r' m' -> wp F (MS r' m' ra f' (cout s') (cin s') mp)) ->
  wp F (MS r mm (cb + a) f (cout s) (cin s) mp).
Proof.
  intros Ho Hsi (s0 & u & code & s' & p & HG & Hp) HVg IB L vs s Q a base ra ws' ws m0 r mm f HC La HA H KN.
  assert (WP : 0 < W) by (destruct HW; lia). unfold codegen_fun in HG. destruct s0 as [fs0 lb0], s' as [zs1 zs2]. unfold reg_SP in HG. 
  mj. repeat match goal with X : unit |- _ => clear X end. match goal with X : add_params _ _ _ _ = Some ?l |- _ => rename X into HP; rename l into loc end. match goal with X : cgs _ _ _ = _ |- _ => rename X into GB0 end.
  cbn [app] in Hp. destruct Hp as [L0 Hp]. rewrite La in L0. apply Some_inj in L0. subst p. norm Hp. plc Hp Hp1. unfold reg_SP in *.
  destruct (St_top W slim STOP cb GB bytes HW Hslim Hstop Hdis _ _ _ _ _ _ _ _ H) as (T1 & T2 & T3 & T4).
  pose proof (st_sp _ _ _ _ _ _ _ _ _ _ _ _ _ H) as E4. rewrite zlen_cons, zlen_app in E4. pose proof (zlen_nonneg ws) as Zw. pose proof (zlen_nonneg ws') as Zw'.
  pose proof (st_lo _ _ _ _ _ _ _ _ _ _ _ _ _ H) as Hlo. pose proof (st_hi _ _ _ _ _ _ _ _ _ _ _ _ _ H) as Hhi.
  pose proof (st_sep _ _ _ _ _ _ _ _ _ _ _ _ _ H) as Hsep. pose proof (st_stk _ _ _ _ _ _ _ _ _ _ _ _ _ H) as Hst. cbn [stk] in Hst. destruct Hst as [_ Hst].
  apply (stk_app W slim STOP cb bytes HW Hslim Hstop Hdis) in Hst as [Hst1 Hst2].
  set (fp := r 4) in *.
  set (hi := fp + W * (1 + zlen ws')) in *.
  assert (Hhi' : hi <= base /\ fp + W <= hi) by (unfold hi; nia).
  destruct (bind_ok ps vs gvars L (cmem s) _ ws' fp 0 [] loc mm hi HC HA Ho HP) as (V' & L' & m' & A1 & A2 & A3 & A4 & A5 & A6 & A7 & A8 & A9 & A10); try reflexivity.
  { replace (fp + W * (1 + 0)) with (fp + W) by ring. exact Hst1. }
  { exact Hlo. }
  { unfold hi. nia. }
  { apply (st_bytes _ _ _ _ _ _ _ _ _ _ _ _ _ H). }
  { apply (st_cb _ _ _ _ _ _ _ _ _ _ _ _ _ H). }
  { eapply (sep_le W slim STOP cb bytes HW Hslim Hstop Hdis); [exact Hsep|lia]. }
  { intros x Hx. destruct (Hsep x Hx) as [[|] _]; lia. }
  { apply (st_agree _ _ _ _ _ _ _ _ _ _ _ _ _ H). }
  { eapply VR_fp; exact HVg. }
  assert (HB : St L' m' fp [] mm r mm).
  { pose proof H as []. constructor; auto.
    - change (zlen (@nil Z)) with 0. unfold fp. lia.
    - lia.
    - eapply (sep_le W slim STOP cb bytes HW Hslim Hstop Hdis); [exact A2|lia].
    - exact I.
    - intros x _ _. reflexivity. }
  assert (NL : forall x, slim <= x < base -> ~ (fp + W <= x < hi) -> ~ inlive L' x).
  { intros x Hx Hn Hl. destruct (A3 x Hl) as [Hl'|Hl']; [|rewrite Z.add_0_r, Z.mul_1_r in Hl'; lia]. destruct (Hsep x Hl') as [[|] _]; lia. }
  assert (REST : forall mem2 r2 m2, Xt L' mem2 fp mm r2 m2 -> r2 4 = fp + W -> St L mem2 base (rds m2 (fp + W) (Z.to_nat (zlen ws')) ++ ws) m0 r2 m2).
  { intros mem2 r2 m2 HX E2. destruct HX as [X1 X2 X3 X4 X5 X6 X7]. constructor; auto.
    - rewrite zlen_app, rds_len, Z2Nat.id by lia. lia.
    - lia.
    - rewrite E2. apply (stk_app W slim STOP cb bytes HW Hslim Hstop Hdis). split; [apply rds_stk|]. rewrite rds_len, Z2Nat.id by lia.
      eapply (stk_ext W slim STOP cb bytes HW Hslim Hstop Hdis); [|exact Hst2]. intros x Hx. apply X7; [right; nia|]. apply NL; [nia|unfold hi; nia].
    - intros x Hx Hl. rewrite X7; [|lia|].
      + apply (st_fr _ _ _ _ _ _ _ _ _ _ _ _ _ H); auto.
      + intros Hl'. destruct (A3 x Hl') as [Hl''|Hl'']; [exact (Hl Hl'')|]. nia. }
  assert (RA : forall mem2 r2 m2, Xt L' mem2 fp mm r2 m2 -> rd (Wn W) m2 fp = ra).
  { intros mem2 r2 m2 HX. rewrite <- T1. apply rd_ext. intros x Hx. rewrite Wn_W in Hx by assumption. apply (xt_fr _ _ _ _ _ _ _ _ _ _ _ HX); [lia|]. apply NL; lia. }
  assert (SB : SX (S k) (SBlock body)) by (apx s_block; exact IB).
  assert (SS : ss (tys (vars (Env V' L'))) rt false (SBlock body) = true) by (rewrite ss_eq; unfold ss_body; cbn [vars]; rewrite A10; exact Hsi).
  assert (z5 = 0). { apx ss_fs; [|exact SS|exact GB0]. exact A7. } subst z5.
  change (cout s) with (cout (setmem s m')). change (cin s) with (cin (setmem s m')).
  eapply SB with (E := Env V' L') (fp := fp) (Q := fun o s2 => match o with ONormal => rt = TVoid /\ Q 0 s2 | OReturn v => Q (conv W rt v) s2 | _ => False end);
    [rewrite cs_eq; exact A1|exact SS|exact GB0|exact A7|exact Hp1|exact HB|lia|lia|lia| |].
  - refine (conj _ (conj _ (conj _ (conj _ _)))).
    + intros ? ? HE. rewrite A8 in HE. discriminate.
    + intros ? ? HE. rewrite A9 in HE. discriminate.
    + intros; contradiction.
    + intros; contradiction.
    + intros v s2 r2 m2 f2 HQ HX E2 Rv Iv. cbn [live] in HX. rewrite (RA _ _ _ HX).
      eapply KN; [exact HQ| |exact Iv| |apply REST; [exact HX|exact E2]]; [rewrite rds_len; lia|]. exact Rv.
  - intros s2 r2 m2 f2 [-> HQ] H2. cbn [live] in H2.
    eapply r_return with (rt := TVoid) (v := 0) (fs := 0) (fp := fp) (Q := fun o s3 => match o with OReturn v => Q v s3 | _ => False end); [exact HW|exact Hslim|exact Hstop|exact Hdis|exact Hcb|exact HF|reflexivity|exact H2|exact Hp|lia|lia|lia|exact HQ| | |].
    + unfold rep, Rk, eqm. rewrite !Z.mod_1_r. reflexivity.
    + exact I.
    + intros v s3 r3 m3 f3 HQ3 HX E3 Rv _. rewrite (RA _ _ _ HX). eapply KN; [exact HQ3| |exact I| |apply REST; [exact HX|exact E3]]; [rewrite rds_len; lia|exact Rv].
Qed.
Lemma c_user k g ps rt body : funs g = Some (FUser ps rt body) -> fun_ok g -> VR gvars [] 0 -> IX k body -> CXg (S k) g.
Proof.
  intros Eg Hf HVg IB L vs s Q lb t a base ra ws' ws m0 r mm f HC Lf La HA H KN.
  destruct (Hf _ _ _ _ _ Eg Lf) as (Ho & Hsi & HG). clear Hf.
  rewrite ccall_eq in HC. unfold ccall_body in HC. rewrite Eg in HC. unfold ptys in HA. rewrite Eg in HA. unfold rty, fk in KN. rewrite Eg in KN.
  eapply c_fun; [exact Ho|exact Hsi|exact HG|exact HVg|exact IB|exact HC|exact La|exact HA|exact H|]. exact KN.
Qed.
End X.
