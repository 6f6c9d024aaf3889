(** * Expressions: the generated code computes what C says *)
From Coq Require Import ZArith List Lia Bool.
From Verif Require Import Base Asm AsmProof X86 X86Proof X86Sem NMach NPtr CLang NGen NSupp NBin NRun NBop NEqs NStat NJudge.
Import ListNotations.
Open Scope Z_scope.

Section X.
Variables (W slim STOP cb GB : Z) (bytes : list Z) (lab : Z -> option Z).
Variables (funs : cdecls) (gvars : list (Z * (Z * ty))) (glo : list gbnd) (F : mst -> Prop) (mp : list Z).
Hypothesis HW : W = 4 \/ W = 8.
Hypothesis Hslim : 0 < slim.
Hypothesis Hstop : STOP < MOD W.
Hypothesis Hdis : STOP <= cb \/ cb + zlen bytes <= slim.
Hypothesis Hcb : 0 <= cb /\ cb + zlen bytes <= MOD W.
Hypothesis HF : decl_ok funs glo.
Set Default Proof Using "HW Hslim Hstop Hdis Hcb HF".
Notation placed := (placed W cb bytes lab).
Notation hsize := (hsize W).
Notation wp := (wp W slim).
Notation MOD := (MOD W).
Notation St := (St W slim STOP cb GB bytes).
Notation EX := (EX W slim STOP cb GB bytes lab funs gvars glo F mp).
Notation LX := (LX W slim STOP cb GB bytes lab funs gvars glo F mp).
Notation AX := (AX W slim STOP cb GB bytes lab funs gvars glo F mp).
Notation CX := (CX W slim STOP cb GB bytes lab funs gvars glo F mp).
Notation VR := (VR W GB glo).
Notation vok := (vok W funs).

Lemma VR_ty V loc fp : VR V loc fp -> forall x t, lookupZ (tys V) x = Some t -> var_type glo loc x = Some t.
Proof.
  intros H x t Hx. assert (exists a, lookupZ V x = Some (a, t)) as [a Ha].
  { clear H. induction V as [|[y [a u]] V IH]; cbn in Hx |- *; [discriminate|]. destruct (x =? y); [|auto]. injection Hx as <-. eauto. }
  destruct (H x a t Ha) as [A _]. unfold var_type.
  destruct A as [(y & off & -> & _)|[(y & off & -> & _)|(-> & off & -> & _)]]; reflexivity.
Qed.

(** A value of a type is represented by its residue. *)
Definition vty (t : ty) : Prop := wfty W t = true /\ t <> TVoid.
Lemma inr_zero t v : vty t -> inr_ W t v -> (v mod MOD = 0 <-> v = 0).
Proof.
  intros [Hw Hv] Hi. pose proof (MOD_pos W HW) as MP. destruct (MODHALF W HW) as [HM HP].
  assert (- HALF W <= v < MOD).
  { destruct t as [n s|t|t n| |]; cbn [inr_] in Hi; try lia; [|congruence]. apply wf_int in Hw; auto.
    destruct s; [|pose proof (isz_pos _ HW _ Hw)].
    - pose proof (inr_half W HW n true v Hw Hi (or_introl eq_refl)). lia.
    - assert (2 ^ (8 * n) <= MOD) by (apply Z.pow_le_mono_r; lia). lia. }
  split; intros E; [|subst; apply Z.mod_0_l; lia].
  destruct (Z.le_gt_cases 0 v); [rewrite Z.mod_small in E by lia; auto|].
  rewrite <- (Z.mod_add v 1) in E by lia. rewrite Z.mod_small in E by lia. lia.
Qed.
Lemma rep_truth t w v : vty t -> inr_ W t v -> 0 <= w < MOD -> rep (Mod W) w v -> rep Truth w v.
Proof. intros Ht Hi Hw R. cbn [rep]. rewrite (rep_word W w v Hw R). eapply inr_zero; eauto. Qed.
Lemma rep_mode m t w v : vty t -> inr_ W t v -> 0 <= w < MOD -> rep (Mod (kof W m)) w v -> rep m w v.
Proof. destruct m; cbn [kof]; auto. intros. eapply rep_truth; eauto. Qed.
Lemma mok_kof m : mok W m -> 0 <= kof W m <= W.
Proof. destruct m; cbn; [auto|]. intros _. destruct HW; lia. Qed.
Lemma rep_val m t v : mok W m -> vty t -> inr_ W t v -> rep m (v mod MOD) v.
Proof.
  intros Hm Ht Hi. pose proof (MOD_pos W HW). eapply rep_mode; eauto; [apply Z.mod_pos_bound; lia|]. apply rep_exact; auto. now apply mok_kof.
Qed.
Lemma vty_int n s : wfty W (TInt n s) = true -> vty (TInt n s). Proof. intros H; split; [exact H|discriminate]. Qed.
Lemma vty_tint : vty tint. Proof. apply vty_int. reflexivity. Qed.
Lemma vty_sc t : wfty W t = true -> scalar t = true -> vty t. Proof. intros H S; split; [exact H|]. intros ->; discriminate. Qed.
Lemma vty_ptr t : wfty W t = true -> is_ptr t = true -> vty t. Proof. intros H S; split; [exact H|]. intros ->; discriminate. Qed.

Lemma sc_isz t : scalar t = true -> wfty W t = true -> isz W (csize W t).
Proof. destruct t; cbn [scalar csize]; try discriminate; intros _ H; [now apply wf_int in H|]. unfold isz. destruct HW; lia. Qed.
Lemma sc_size t : scalar t = true -> wfty W t = true -> 1 <= csize W t <= W.
Proof. intros. apply isz_pos; auto. now apply sc_isz. Qed.
Lemma sc_ge1 t : wfty W t = true -> forall n s, t = TInt n s -> 1 <= n.
Proof. intros H n s ->. apply wf_int in H; auto. pose proof (isz_pos W HW n H). lia. Qed.
Lemma sgnn_mod n v : isz W n -> 0 <= v < 2 ^ (8 * n) -> inr_ W (TInt n true) (sgnn n v) /\ eqm n (sgnn n v) v.
Proof.
  intros Hn Hv. pose proof (isz_pos W HW n Hn) as Hp. unfold sgnn. cbn [inr_].
  assert (E : 2 ^ (8 * n) = 2 * 2 ^ (8 * n - 1)) by (rewrite <- Z.pow_succ_r by lia; f_equal; lia).
  assert (P : 0 < 2 ^ (8 * n - 1)) by (apply Z.pow_pos_nonneg; lia).
  destruct (Z.leb_spec (2 ^ (8 * n - 1)) v).
  - split; [lia|]. unfold eqm. rewrite <- (Z.mod_add (v - _) 1) by lia. f_equal. lia.
  - split; [lia|reflexivity].
Qed.
Lemma ld_val L mem base ws m0 r m t a : St L mem base ws m0 r m -> scalar t = true -> wfty W t = true -> inblock L a (csize W t) ->
  ldv W m (is_sgn t && negb (csize W t =? W)) (csize W t) a = loadv W t mem a mod MOD /\ inr_ W t (loadv W t mem a).
Proof.
  intros H Sc Hw Hb. pose proof (sc_size t Sc Hw) as Sz.
  assert (Hr : rd (Z.to_nat (csize W t)) m a = rd (Z.to_nat (csize W t)) mem a).
  { eapply rd_live; [exact HW|exact Hslim|exact Hstop|exact Hdis|exact H|exact Hb|lia]. }
  pose proof (rd_range (Z.to_nat (csize W t)) mem a (st_cb _ _ _ _ _ _ _ _ _ _ _ _ _ H)) as Rg. rewrite pow256 in Rg by lia.
  unfold ldv. rewrite Hr. destruct t as [n s|t|t n| |]; try discriminate; cbn [csize is_sgn loadv] in *.
  - apply wf_int in Hw; auto. destruct s; cbn [andb].
    + destruct (sgnn_mod n _ Hw Rg) as [I1 I2]. split; [|exact I1].
      destruct (Z.eqb_spec n W); cbn [negb]; [|reflexivity]. unfold eqm in I2. subst n. unfold X86Sem.MOD. rewrite I2. reflexivity.
    + split; [reflexivity|exact Rg].
  - rewrite Z.eqb_refl. cbn [andb negb]. split; [reflexivity|]. exact Rg.
Qed.
Lemma rd_low n k m a : (n <= k)%nat -> bytes_ok m -> rd n m a = rd k m a mod 256 ^ Z.of_nat n.
Proof.
  revert k a. induction n as [|n IH]; intros k a Hn Hb; cbn [rd]; [symmetry; apply Z.mod_1_r|].
  destruct k as [|k]; [lia|]. cbn [rd]. rewrite (IH k) by (auto; lia).
  rewrite Nat2Z.inj_succ, Z.pow_succ_r by lia.
  assert (P : 0 < 256 ^ Z.of_nat n) by (apply Z.pow_pos_nonneg; lia).
  rewrite Z.rem_mul_r by lia. specialize (Hb a).
  rewrite Z.add_comm, Z.mul_comm.
  replace (m a + 256 * rd k m (a + 1)) with (m a + rd k m (a + 1) * 256) by ring.
  rewrite Z.mod_add by lia. rewrite Z.div_add by lia. rewrite (Z.mod_small (m a)) by lia. rewrite (Z.div_small (m a)) by lia.
  rewrite Z.add_0_l. ring.
Qed.

Lemma x_lit k z : EX (S k) (ELit z).
Proof.
  case0. destruct HC as [Hz HQ]. mi. norm Hp. unfold reg_X in *. tmovi H Hp r1 E0 Eq. tpush H Hp r2 m2 Eq2. rewrite E0 in H.
  assert (I : inr_ W tint z) by (cbn; lia).
  fin K; eauto.
  - split; [|discriminate]. cbn [ctype]. intros t Ht. apply Some_inj in Ht as <-. exact I.
  - eapply rep_val; eauto. apply vty_tint.
Qed.
Lemma x_chr k z : EX (S k) (EChr z).
Proof.
  case0. destruct HC as [Hz HQ]. mi. norm Hp. unfold reg_X in *. tmovi H Hp r1 E0 Eq. tpush H Hp r2 m2 Eq2. rewrite E0 in H.
  assert (I : inr_ W tint z) by (cbn; lia).
  fin K; eauto.
  - split; [|discriminate]. cbn [ctype]. intros t Ht. apply Some_inj in Ht as <-. exact I.
  - eapply rep_val; eauto. apply vty_tint.
Qed.
Lemma x_par k e : EX k e -> EX (S k) (EPar e).
Proof.
  intros IH. case0. mi. rewrite !app_nil_r in *. eapply IH; eauto.
Qed.

(** The address of a variable. *)
Lemma addr_word fs off base n r4 a : r4 = base - W * n -> a = base - W * n + W * fs - off * W -> 0 <= a < MOD ->
  (((fs - off) * W) mod MOD + r4) mod MOD = a.
Proof. intros E1 E2 Ha. rewrite Z.add_mod_idemp_l by (pose proof (MOD_pos W HW); lia). rewrite E1. replace ((fs - off) * W + (base - W * n)) with a by lia. apply Z.mod_small, Ha. Qed.
Lemma l_var k x : LX (S k) (EVar x).
Proof.
  intros E s Q loc fp fs lb u code st' base ws m0 r mm p f HC HS HG HV Hp H Hfp K.
  rewrite cl_eq in HC; rewrite codegen_lvalue_eq in HG.
  unfold cl_body, codegen_lvalue_body in HC, HG; cbv beta iota zeta in HC, HG. destruct st'.
  destruct (lookupZ (vars E) x) as [[a t]|] eqn:Ex; [|contradiction]. destruct (HV x a t Ex) as [Ha Ra]. pose proof (MOD_pos W HW).
  mi1. match goal with H : (if _ =? 0 then _ else _) _ = _ |- _ => destruct (_ =? 0); [discriminate H|] end.
  destruct Ha as [(y & off & L1 & _ & Ha)|[(y & off & L1 & Ha)|(L1 & off & L2 & Ha)]].
  1,2: rewrite L1 in *; mj; norm Hp; cbn [fst snd] in *; unfold reg_X, reg_SP in *; pose proof (st_sp _ _ _ _ _ _ _ _ _ _ _ _ _ H) as Sp;
    tmovi H Hp r1 E0 Eq; talu H Hp r2 E2 Eq2; tpush H Hp r3 m3 Eq3;
    rewrite E2, E0, Eq in H by lia;
    rewrite (addr_word fs off base (zlen ws) _ a) in H by (auto; lia); fin K; eauto.
  rewrite L1, L2 in *. mj; norm Hp; unfold reg_X, reg_glo in *. pose proof (st_glo _ _ _ _ _ _ _ _ _ _ _ _ _ H) as Sp.
  tmovi H Hp r1 E0 Eq; talu H Hp r2 E2 Eq2; tpush H Hp r3 m3 Eq3. rewrite E2, E0, Eq, Sp in H by lia.
  rewrite Z.add_mod_idemp_l in H by lia. rewrite (Z.add_comm off), <- Ha, Z.mod_small in H by lia. fin K; eauto.
Qed.
(** Reading an object whose address is in [X]. *)
Lemma rd_objg e E t L mem base ws m0 r m p k f o i a d (s : cst) Q : St L mem base ws m0 r m -> L = live E -> mem = cmem s ->
  scalar t = true -> wfty W t = true -> r d = a -> 0 <= a < MOD -> e <> 3 -> e <> 4 ->
  reads W E t a s Q -> okw W (csize W t) = true ->
  placed p (HC (HLoad (is_sgn t && negb (csize W t =? W)) (csize W t) e d 0) :: k) ->
  (forall v r', Q v s -> inr_ W t v -> r' e = v mod MOD -> (forall q, q <> e -> r' q = r q) -> St L mem base ws m0 r' m ->
     wp F (MS r' m (cb + (p + ilen W (HLoad (is_sgn t && negb (csize W t =? W)) (csize W t) e d 0))) f o i mp)) ->
  wp F (MS r m (cb + p) f o i mp).
Proof.
  intros H -> -> Sc Hw Hr Ra H3 H4 HR Ok Hp K.
  assert (HR' : inblock (live E) a (csize W t) /\ Q (loadv W t (cmem s) a) s) by (destruct t; try discriminate; exact HR).
  destruct HR' as [Hb HQ]. destruct (ld_val _ _ _ _ _ _ _ t a H Sc Hw Hb) as [E1 I1].
  ap r_load; [exact H|exact Hp|side|side|exact Ok| |rewrite Hr; lia|].
  - intros Ew. rewrite Ew, Z.eqb_refl. apply andb_false_r.
  - intros r' H' E' Eq. rewrite Hr, Z.add_0_r, E1 in E'. eapply K; eauto.
Qed.
Lemma rd_obj E t L mem base ws m0 r m p k f o i a d (s : cst) Q : St L mem base ws m0 r m -> L = live E -> mem = cmem s ->
  scalar t = true -> wfty W t = true -> r d = a -> 0 <= a < MOD -> d <> 3 -> d <> 4 ->
  reads W E t a s Q -> okw W (csize W t) = true ->
  placed p (HC (HLoad (is_sgn t && negb (csize W t =? W)) (csize W t) 0 d 0) :: k) ->
  (forall v r', Q v s -> inr_ W t v -> r' 0 = v mod MOD -> (forall q, q <> 0 -> r' q = r q) -> St L mem base ws m0 r' m ->
     wp F (MS r' m (cb + (p + ilen W (HLoad (is_sgn t && negb (csize W t =? W)) (csize W t) 0 d 0))) f o i mp)) ->
  wp F (MS r m (cb + p) f o i mp).
Proof. intros. eapply (rd_objg 0); eauto; discriminate. Qed.
Lemma okw_sc t : scalar t = true -> wfty W t = true -> okw W (csize W t) = true.
Proof. intros Sc Hw. pose proof (sc_isz t Sc Hw) as [-> | [-> | [-> | [-> E]]]]; unfold okw; auto. rewrite E. reflexivity. Qed.
Lemma width_sc t : scalar t = true -> type_width W t false false = csize W t.
Proof. intros. unfold type_width. apply width_csize, scalar_arr. assumption. Qed.
Ltac agg := repeat match goal with
  | N : is_struct ?t = false, H : context [is_struct ?t] |- _ => lazymatch H with N => fail | _ => rewrite N in H end
  | N : is_agg ?t = _, H : context [is_agg ?t] |- _ => lazymatch H with N => fail | _ => rewrite N in H end
  end.
Lemma x_var k x : EX (S (S k)) (EVar x).
Proof.
  case0. destruct (ctype W funs (tys (vars E)) (EVar x)) as [t'|] eqn:Ect; [|contradiction].
  rewrite cl_eq in HC. unfold cl_body in HC. cbv beta iota zeta in HC. pose proof Ect as Ect'. cbn [ctype] in Ect.
  destruct (lookupZ (vars E) x) as [[a t]|] eqn:Ex; [|contradiction]. destruct (HV x a t Ex) as [Ha Ra]. pose proof (MOD_pos W HW).
  assert (Et : forall V, lookupZ V x = Some (a, t) -> lookupZ (tys V) x = Some t).
  { induction V as [|[y [b c]] V IH]; cbn; [discriminate|]. destruct (x =? y); auto. intros Hh. injection Hh as -> ->. reflexivity. }
  rewrite (Et _ Ex) in Ect, HS. apply Some_inj in Ect. subst t'. clear Et.
  assert (KA : forall v s' r' m' f', Q v s' -> inr_ W t v -> t <> TVoid -> St (live E) (cmem s') base (v mod MOD :: ws) m0 r' m' ->
     wp F (MS r' m' (cb + (p + hsize code)) f' (cout s') (cin s') mp)).
  { intros v s' r' m' f' HQ HI Hn HH. eapply K; eauto.
    - split; [|discriminate]. intros t0 Ht0. rewrite Ect' in Ht0. apply Some_inj in Ht0 as <-. exact HI.
    - eapply rep_val; eauto. split; auto. }
  clear K.
  assert (Nv : t <> TVoid) by (intros ->; exact HC).
  assert (Ns : is_struct t = false) by (destruct t; auto; destruct HC).
  assert (Na' : is_agg t = is_arr t) by (unfold is_agg; rewrite Ns; apply orb_false_r).
  mi1. destruct Ha as [(y & off & L1 & Na & Ha)|[(y & off & L1 & Ha)|(L1 & off & L2 & Ha)]].
  - rewrite L1 in *. agg. assert (Sc : scalar t = true) by (destruct t; try discriminate; auto; congruence).
    rewrite width_sc in * by assumption. mj. agg. mj. norm Hp. unfold reg_X, reg_SP in *. pose proof (st_sp _ _ _ _ _ _ _ _ _ _ _ _ _ H) as Sp.
    tmovi H Hp r1 E0 Eq; talu H Hp r2 E2 Eq2. rewrite E0, Eq in E2 by lia. rewrite (addr_word fs off base (zlen ws) _ a) in E2 by (auto; lia).
    eapply rd_obj with (E := E) (t := t) (a := a); [exact H|reflexivity|reflexivity|exact Sc|exact HS|exact E2|exact Ra|side|side|exact HC|apply okw_sc; auto|exact Hp|].
    clear H. intros v r3 HQ HI E3 _ H. nx Hp. tpush H Hp r4 m4 Eq4. rewrite E3 in H. fin KA; eauto.
  - rewrite L1 in *. agg. destruct (is_arr t) eqn:Ea.
    + mj. norm Hp. unfold reg_X, reg_SP in *. pose proof (st_sp _ _ _ _ _ _ _ _ _ _ _ _ _ H) as Sp.
      tmovi H Hp r1 E0 Eq; talu H Hp r2 E2 Eq2. rewrite E0, Eq in E2 by lia. rewrite (addr_word fs off base (zlen ws) _ a) in E2 by (auto; lia).
      tpush H Hp r4 m4 Eq4. rewrite E2 in H. destruct t; try discriminate. rewrite <- (Z.mod_small a MOD) in H by lia. fin KA; eauto.
    + assert (Sc : scalar t = true) by (destruct t; try discriminate; auto; congruence).
      rewrite width_sc in * by assumption. mj. norm Hp. unfold reg_X, reg_SP in *. pose proof (st_sp _ _ _ _ _ _ _ _ _ _ _ _ _ H) as Sp.
      tmovi H Hp r1 E0 Eq; talu H Hp r2 E2 Eq2. rewrite E0, Eq in E2 by lia. rewrite (addr_word fs off base (zlen ws) _ a) in E2 by (auto; lia).
      eapply rd_obj with (E := E) (t := t) (a := a); [exact H|reflexivity|reflexivity|exact Sc|exact HS|exact E2|exact Ra|side|side|exact HC|apply okw_sc; auto|exact Hp|].
      clear H. intros v r3 HQ HI E3 _ H. nx Hp. tpush H Hp r4 m4 Eq4. rewrite E3 in H. fin KA; eauto.
  - rewrite L1, L2 in *. agg. pose proof (st_glo _ _ _ _ _ _ _ _ _ _ _ _ _ H) as Sp.
    assert (Ad : (off mod MOD + GB) mod MOD = a) by (rewrite Z.add_mod_idemp_l, (Z.add_comm off), <- Ha by lia; apply Z.mod_small; lia).
    destruct (is_arr t) eqn:Ea.
    + mj. norm Hp. unfold reg_X, reg_glo in *.
      tmovi H Hp r1 E0 Eq; talu H Hp r2 E2 Eq2. rewrite E0, Eq, Sp, Ad in E2 by lia.
      tpush H Hp r4 m4 Eq4. rewrite E2 in H. destruct t; try discriminate. rewrite <- (Z.mod_small a MOD) in H by lia. fin KA; eauto.
    + assert (Sc : scalar t = true) by (destruct t; try discriminate; auto; congruence).
      rewrite width_sc in * by assumption. mj. norm Hp. unfold reg_X, reg_glo in *.
      tmovi H Hp r1 E0 Eq; talu H Hp r2 E2 Eq2. rewrite E0, Eq, Sp, Ad in E2 by lia.
      eapply rd_obj with (E := E) (t := t) (a := a); [exact H|reflexivity|reflexivity|exact Sc|exact HS|exact E2|exact Ra|side|side|exact HC|apply okw_sc; auto|exact Hp|].
      clear H. intros v r3 HQ HI E3 _ H. nx Hp. tpush H Hp r4 m4 Eq4. rewrite E3 in H. fin KA; eauto.
Qed.
End X.
