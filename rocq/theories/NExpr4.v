(** * Expressions, continued: assignment, conversions, short circuit, calls *)
From Coq Require Import ZArith List Lia Bool.
From Verif Require Import Base Asm AsmProof X86 X86Proof X86Sem NMach NPtr CLang NGen NSupp NBin NRun NBop NEqs NStat NJudge NExpr NExpr2 NExpr3.
Import ListNotations.
Open Scope Z_scope.

Section X.
Variables (W slim STOP cb GB : Z) (bytes : list Z) (lab : Z -> option Z).
Variables (funs : cdecls) (gvars : list (Z * (Z * ty))) (glo : list gbnd) (F : mst -> Prop) (mp : list Z).
Hypothesis HW : W = 4 \/ W = 8.
Hypothesis Hslim : 0 < slim.
Hypothesis Hstop : STOP < MOD W.
Hypothesis Hdis : STOP <= cb \/ cb + zlen bytes <= slim.
Hypothesis Hcb : 0 <= cb /\ cb + zlen bytes <= MOD W.
Hypothesis HF : decl_ok funs glo.
Set Default Proof Using "HW Hslim Hstop Hdis Hcb HF".
Notation placed := (placed W cb bytes lab).
Notation hsize := (hsize W).
Notation wp := (wp W slim).
Notation MOD := (MOD W).
Notation St := (St W slim STOP cb GB bytes).
Notation EX := (EX W slim STOP cb GB bytes lab funs gvars glo F mp).
Notation LX := (LX W slim STOP cb GB bytes lab funs gvars glo F mp).
Notation AX := (AX W slim STOP cb GB bytes lab funs gvars glo F mp).
Notation CX := (CX W slim STOP cb GB bytes lab funs gvars glo F mp).
Notation VR := (VR W GB glo).
Notation vok := (vok W funs).
Notation kof := (kof W).
Notation mok := (mok W).
Ltac kty := split; [intros tt0 Ht0; cbn [ctype] in Ht0|discriminate].
Lemma tw L mem base ws m0 w r m : St L mem base (w :: ws) m0 r m -> 0 <= w < MOD.
Proof. intros. apx topw; eauto. Qed.
Lemma ty3 V loc fp e c v : VR V loc fp -> ty2 W funs (tys V) e = Some (c, v) ->
  ctype W funs (tys V) e = Some c /\ value_type (lookupZ (tys V)) (ftab funs) (mtab funs) e = Some v /\ wfty W c = true /\ wfty W v = true /\ vt glo loc e = Some v.
Proof. intros. apx ty2i; eauto. Qed.
Lemma vk E e v t : vok E e v -> ctype W funs (tys (vars E)) e = Some t -> inr_ W t v.
Proof. intros [H _]. apply H. Qed.
Lemma mk m : mok m -> 0 <= kof m <= W.
Proof. destruct m; cbn; [auto|]. intros _. destruct HW; lia. Qed.
Lemma rvf E loc fp m e fs lb u c fs' lb' : VR (vars E) loc fp -> supp W funs (tys (vars E)) m e = true ->
  codegen_rvalue W glo loc e (fs, lb) = Some (u, c, (fs', lb')) -> fs' = fs + 1.
Proof. intros HV. eapply rv_fs; eauto. apx VR_ty; eauto. Qed.
Lemma lvf E loc fp e fs lb u c fs' lb' : VR (vars E) loc fp -> slv W funs (tys (vars E)) e = true ->
  codegen_lvalue W glo loc e (fs, lb) = Some (u, c, (fs', lb')) -> fs' = fs + 1.
Proof. intros HV. eapply lv_fs; eauto. apx VR_ty; eauto. Qed.
Lemma lvw V loc fp e c s w code s' : VR V loc fp -> ty2 W funs (tys V) e = Some (c, c) -> scalar c || is_struct c = true -> slv W funs (tys V) e = true ->
  codegen_lvalue W glo loc e s = Some (w, code, s') -> w = csize W c.
Proof. intros HV H2 Sc Sl HG. destruct (ty3 _ _ _ _ _ _ HV H2) as (C1 & V1 & _). eapply lv_width; [| |exact Sl|exact C1|apply scalar_arr', Sc|exact V1|exact HG]; auto. apx VR_ty; eauto. Qed.
Lemma orb_l a b : a = true -> a || b = true. Proof. intros ->. reflexivity. Qed.
Ltac top H := let Rg := fresh "Rg" in assert (Rg := tw _ _ _ _ _ _ _ _ H).
Ltac fsx HV := repeat match goal with
  | S : supp _ _ _ _ ?e = true, G : codegen_rvalue _ _ _ ?e (?a, _) = Some (_, _, (?b, _)) |- _ =>
      lazymatch goal with _ : b = a + 1 |- _ => fail | _ => assert (b = a + 1) by (eapply rvf; [exact HV|exact S|exact G]) end
  | S : slv _ _ _ ?e = true, G : codegen_lvalue _ _ _ ?e (?a, _) = Some (_, _, (?b, _)) |- _ =>
      lazymatch goal with _ : b = a + 1 |- _ => fail | _ => assert (b = a + 1) by (eapply lvf; [exact HV|exact S|exact G]) end
  end.
Ltac vtx V2 := match type of V2 with _ ?e = Some _ => repeat match goal with H : vt _ _ e = Some ?a |- _ =>
   lazymatch H with V2 => fail | _ => rewrite V2 in H; apply Some_inj in H; subst a end end end.
Ltac plc Hp Hp1 := apply (placed_app _ _ _ _ HW) in Hp as [Hp1 Hp].

Lemma conv_rep k t u x w : conv_ok W k t u = true -> wfty W t = true -> wfty W u = true -> scalar u = true -> inr_ W t x -> 0 <= k ->
  rep (Mod k) w x -> rep (Mod k) w (conv W u x).
Proof.
  intros Hc Wt Wu Sc Hi Hk R. cbn [rep] in *. apply orb_true_iff in Hc as [Hc|Hc].
  - apply Z.leb_le in Hc. eapply eqm_trans; [exact R|]. apply eqm_sym, conv_eqm_sc; auto.
  - rewrite conv_id; [exact R| |exact (subr_inr W HW t u x Wt Wu Hc Hi)]. intros n sg En. apx sc_ge1; eauto.
Qed.
(** Writing an object. *)
Lemma r_write E t L mem base ws m0 r m p k f o i a b src v (s : cst) Q : St L mem base ws m0 r m -> L = live E -> mem = cmem s ->
  wfty W t = true -> r b = a -> 0 <= a < MOD -> eqm (csize W t) (r src) v -> writes W E t a v s Q ->
  placed p (HC (HStore (csize W t) b 0 src) :: k) ->
  (forall s' m', Q s' -> cout s' = cout s -> cin s' = cin s -> St L (cmem s') base ws m0 r m' ->
     wp F (MS r m' (cb + (p + ilen W (HStore (csize W t) b 0 src))) f o i mp)) ->
  wp F (MS r m (cb + p) f o i mp).
Proof.
  intros H -> -> Wt Er Ra Ev (Sc & Hb & HQ) Hp K.
  assert (Sz : 1 <= csize W t <= W) by (apx sc_size; auto).
  eapply wp_store; [apply (st_code _ _ _ _ _ _ _ _ _ _ _ _ _ H)|exact Hp|lia|].
  rewrite Er, Z.add_0_r. eapply K; [exact HQ|reflexivity|reflexivity|]. cbn [cmem setmem]. unfold storev.
  eapply St_write; eauto. lia.
Qed.

(** Copying an object. *)
Lemma wrb_rd n : forall m m' a b x, bytes_ok m' -> a <= x < a + Z.of_nat n -> wrb n m a (rd n m' b) x = m' (b + (x - a)).
Proof.
  induction n as [|n IH]; intros m m' a b x Hb Hx; [lia|]. cbn [wrb rd]. pose proof (Hb b) as B.
  assert (E1 : (m' b + 256 * rd n m' (b + 1)) mod 256 = m' b) by (rewrite Z.mul_comm, Z.mod_add by lia; apply Z.mod_small; lia).
  assert (E2 : (m' b + 256 * rd n m' (b + 1)) / 256 = rd n m' (b + 1)) by (rewrite Z.mul_comm, Z.div_add, Z.div_small by lia; lia).
  rewrite E1, E2. destruct (Z.eq_dec x a) as [->|Hne].
  - rewrite wrb_out by lia. rewrite upd_same. f_equal. lia.
  - rewrite IH by (auto; lia). f_equal. lia.
Qed.
Lemma St_memx L mem mem' base ws m0 r m : St L mem base ws m0 r m -> (forall x, mem' x = mem x) -> St L mem' base ws m0 r m.
Proof.
  intros [H1 H2 H3 H4 H5 H6 H7 H8 H9 H10 H11 H12] E. constructor; auto.
  - intros x. rewrite E. apply H3.
  - intros x Hx. rewrite E. auto.
Qed.
Lemma cp_step w L mem base ws m0 r m p k f o i P Q n j : w = 1 \/ w = W ->
  St L (copyv mem P Q j) base ws m0 r m -> r 1 = P -> r 0 = Q -> 0 <= P -> 0 <= Q ->
  inblock L P n -> inblock L Q n -> P + n <= MOD -> Q + n <= MOD -> P = Q \/ P + n <= Q \/ Q + n <= P -> 0 <= j -> j + w <= n ->
  placed p (HC (HLoad false w 2 0 j) :: HC (HStore w 1 j 2) :: k) ->
  (forall r' m', St L (copyv mem P Q (j + w)) base ws m0 r' m' -> r' 1 = P -> r' 0 = Q ->
     placed (p + ilen W (HLoad false w 2 0 j) + ilen W (HStore w 1 j 2)) k ->
     wp F (MS r' m' (cb + (p + ilen W (HLoad false w 2 0 j) + ilen W (HStore w 1 j 2))) f o i mp)) ->
  wp F (MS r m (cb + p) f o i mp).
Proof.
  intros Ew H E1 E0 HP HQ0 Ip Iq Mp Mq Dj Hj Hjn Hp K.
  assert (Sz : 1 <= w <= W) by (destruct HW; lia).
  assert (Okw : okw W w = true) by (unfold okw; destruct Ew as [-> | ->]; destruct HW as [Eo|Eo]; rewrite Eo; reflexivity).
  assert (Ib : forall q, inblock L q n -> inblock L (q + j) w).
  { intros q (b & B1 & B2 & B3). exists b. repeat split; auto; lia. }
  ap r_load; [exact H|exact Hp|discriminate|discriminate|exact Okw|reflexivity|rewrite E0; lia|].
  intros r1 H1 V1 Eq1. rewrite E0 in V1. clear H. nx Hp.
  eapply wp_store; [apply (st_code _ _ _ _ _ _ _ _ _ _ _ _ _ H1)|exact Hp|rewrite Eq1 by lia; lia|].
  rewrite (Eq1 1), E1 by lia.
  eapply K; [|rewrite Eq1 by lia; exact E1|rewrite Eq1 by lia; exact E0|nx Hp; exact Hp].
  assert (H2 : St L (wrb (Z.to_nat w) (copyv mem P Q j) (P + j) (rd (Z.to_nat w) (copyv mem P Q j) (Q + j))) base ws m0 r1 (wrb (Z.to_nat w) m (P + j) (r1 2))).
  { eapply St_write; [exact HW|exact Hslim|exact Hstop|exact Hdis|exact H1|apply Ib, Ip|lia|]. rewrite V1. unfold ldv.
    eapply eqm_trans; [apply eqm_MOD; lia|]. erewrite rd_live; [apply eqm_refl|exact HW|exact Hslim|exact Hstop|exact Hdis|exact H1|apply Ib, Iq|lia]. }
  eapply St_memx; [exact H2|]. intros x. pose proof (st_cb _ _ _ _ _ _ _ _ _ _ _ _ _ H1) as Bm.
  destruct (Z_lt_ge_dec x (P + j)) as [Hx|Hx]; [|destruct (Z_lt_ge_dec x (P + j + w)) as [Hy|Hy]].
  - rewrite wrb_out by lia. unfold copyv. destruct (Z.leb_spec P x), (Z.ltb_spec x (P + (j + w))), (Z.ltb_spec x (P + j)); cbn [andb]; try lia; reflexivity.
  - rewrite wrb_rd by (auto; lia). unfold copyv. destruct (Z.leb_spec P x), (Z.ltb_spec x (P + (j + w))); cbn [andb]; try lia.
    destruct (Z.leb_spec P (Q + j + (x - (P + j)))), (Z.ltb_spec (Q + j + (x - (P + j))) (P + j)); cbn [andb]; try lia; f_equal; lia.
  - rewrite wrb_out by lia. unfold copyv. destruct (Z.leb_spec P x), (Z.ltb_spec x (P + (j + w))), (Z.ltb_spec x (P + j)); cbn [andb]; try lia; reflexivity.
Qed.
Lemma cp_loop w j0 L mem base ws m0 P Q n : w = 1 \/ w = W -> 0 <= P -> 0 <= Q ->
  inblock L P n -> inblock L Q n -> P + n <= MOD -> Q + n <= MOD -> P = Q \/ P + n <= Q \/ Q + n <= P -> 0 <= j0 ->
  forall c a r m p f o i k, St L (copyv mem P Q (j0 + Z.of_nat a * w)) base ws m0 r m -> r 1 = P -> r 0 = Q -> j0 + Z.of_nat (a + c) * w <= n ->
  placed p (flat_map (fun i => [HC (HLoad false w 2 0 (j0 + Z.of_nat i * w)); HC (HStore w 1 (j0 + Z.of_nat i * w) 2)]) (seq a c) ++ k) ->
  (forall r' m' p', St L (copyv mem P Q (j0 + Z.of_nat (a + c) * w)) base ws m0 r' m' -> r' 1 = P -> r' 0 = Q -> placed p' k ->
     p' = p + hsize (flat_map (fun i => [HC (HLoad false w 2 0 (j0 + Z.of_nat i * w)); HC (HStore w 1 (j0 + Z.of_nat i * w) 2)]) (seq a c)) ->
     wp F (MS r' m' (cb + p') f o i mp)) ->
  wp F (MS r m (cb + p) f o i mp).
Proof.
  intros Ew HP HQ0 Ip Iq Mp Mq Dj Hj. induction c as [|c IH]; intros a r m p f o i k H E1 E0 Hn Hp K.
  - cbn [seq flat_map app] in Hp. eapply K; [rewrite Nat.add_0_r; exact H|exact E1|exact E0|exact Hp|cbn [seq flat_map hsize]; lia].
  - cbn [seq flat_map app] in Hp.
    eapply cp_step with (w := w) (n := n); [exact Ew|exact H|exact E1|exact E0|exact HP|exact HQ0|exact Ip|exact Iq|exact Mp|exact Mq|exact Dj| | |exact Hp|].
    { destruct HW; nia. } { destruct HW; nia. }
    clear H Hp r m E1 E0. intros r m H E1 E0 Hp.
    eapply (IH (S a)); [|exact E1|exact E0| |exact Hp|].
    + replace (j0 + Z.of_nat (S a) * w) with (j0 + Z.of_nat a * w + w) by lia. exact H.
    + replace (S a + c)%nat with (a + S c)%nat by lia. exact Hn.
    + intros r' m' p' H' E1' E0' Hp' Ep. eapply K; [|exact E1'|exact E0'|exact Hp'|].
      * replace (a + S c)%nat with (S a + c)%nat by lia. exact H'.
      * subst p'. cbn [seq flat_map app hsize]. lia.
Qed.
Lemma r_copy L mem base ws m0 r m p k f o i P Q n : St L mem base ws m0 r m -> r 1 = P -> r 0 = Q -> 0 <= P -> 0 <= Q -> 0 <= n ->
  inblock L P n -> inblock L Q n -> P + n <= MOD -> Q + n <= MOD -> P = Q \/ P + n <= Q \/ Q + n <= P ->
  placed p (copy_obj W 1 0 n ++ k) ->
  (forall r' m' p', St L (copyv mem P Q n) base ws m0 r' m' -> placed p' k -> p' = p + hsize (copy_obj W 1 0 n) ->
     wp F (MS r' m' (cb + p') f o i mp)) ->
  wp F (MS r m (cb + p) f o i mp).
Proof.
  intros H E1 E0 HP HQ0 Hn Ip Iq Mp Mq Dj Hp K. unfold copy_obj in *. rewrite <- app_assoc in Hp. unfold copy_words, copy_bytes, reg_Z in *.
  assert (WP : 0 < W) by (destruct HW; lia).
  pose proof (Z.div_mod n W ltac:(lia)) as Dm. pose proof (Z.mod_pos_bound n W WP) as Md. pose proof (Z.div_pos n W Hn WP) as Dp.
  eapply (cp_loop W 0) with (mem := mem) (n := n) (a := 0%nat); [right; reflexivity|exact HP|exact HQ0|exact Ip|exact Iq|exact Mp|exact Mq|exact Dj|lia| |exact E1|exact E0| |exact Hp|].
  - eapply St_memx; [exact H|]. intros x. unfold copyv. destruct (Z.leb_spec P x), (Z.ltb_spec x (P + (0 + Z.of_nat 0 * W))); cbn [andb]; try lia; reflexivity.
  - cbn [Nat.add]. rewrite Z2Nat.id by lia. nia.
  - clear H Hp E1 E0 r m. intros r m p1 H E1 E0 Hp Ep1. cbn [Nat.add] in H. rewrite Z2Nat.id in H by lia.
    assert (Eb : forall l, flat_map (fun i : nat => let o0 := n / W * W + Z.of_nat i in [HC (HLoad false 1 2 0 o0); HC (HStore 1 1 o0 2)]) l =
      flat_map (fun i => [HC (HLoad false 1 2 0 (n / W * W + Z.of_nat i * 1)); HC (HStore 1 1 (n / W * W + Z.of_nat i * 1) 2)]) l).
    { intros l. apply flat_map_ext. intros x. rewrite Z.mul_1_r. reflexivity. }
    cbv zeta in Eb. rewrite Eb in Hp.
    eapply (cp_loop 1 (n / W * W)) with (mem := mem) (n := n) (a := 0%nat); [left; reflexivity|exact HP|exact HQ0|exact Ip|exact Iq|exact Mp|exact Mq|exact Dj|nia| |exact E1|exact E0| |exact Hp|].
    + replace (n / W * W + Z.of_nat 0 * 1) with (0 + n / W * W) by lia. exact H.
    + cbn [Nat.add]. rewrite Z2Nat.id by lia. nia.
    + clear H Hp E1 E0 r m. intros r m p2 H E1 E0 Hp Ep2. cbn [Nat.add] in H. rewrite Z2Nat.id in H by lia.
      eapply K; [replace n with (n / W * W + n mod W * 1) at 1 by nia; exact H|exact Hp|].
      rewrite hsize_app, Eb. subst p2 p1. cbn [Z.add] in *. lia.
Qed.

Lemma x_comma k a b : EX k a -> EX k b -> EX (S k) (EComma a b).
Proof.
  intros IHa IHb. case0. bt. unfold codegen_comma in HG. mi. fsx HV. norm Hp. plc Hp Hp1. plc Hp Hp2. unfold reg_X, reg_Y in *.
  eapply IHa; [exact HC|eassumption|cbn; destruct HW; lia|eassumption|exact HV|exact Hp1|exact H|lia|].
  clear H. intros vx s1 wx r1 m1 f1 HQ1 Hv1 Rx H. top H. cbv beta in HQ1.
  eapply IHb; [exact HQ1|eassumption|exact Hm|eassumption|exact HV|exact Hp2|exact H|rewrite zlen_cons; lia|].
  clear H. intros vy s2 wy r2 m2 f2 HQ2 Hv2 Ry H.
  tpop H Hp r3 E3 Eq3. tpop H Hp r4 E4 Eq4. tmov H Hp r5 E5 Eq5. rewrite Eq4, E3 in E5 by lia. tpush H Hp r6 m6 Eq6. rewrite E5 in H. fin K; eauto.
  split; [|discriminate]. cbn [ctype]. match goal with C : ctype W funs _ b = Some ?t |- _ => rewrite C; intros t' Ht'; apply Some_inj in Ht' as <-; pose proof (vk _ _ _ _ Hv2 C) as Iv; destruct t end; try discriminate; exact Iv.
Qed.
Lemma csize_nn t : wfty W t = true -> 0 <= csize W t.
Proof. induction t; cbn [wfty csize]; intros H; bt; [apply wf_int in H; auto; pose proof (isz_pos W HW n H); lia|destruct HW; lia| |lia|lia]. apply Z.ltb_lt in H1. pose proof (IHt H). nia. Qed.
Lemma size_res t m z : wfty W t = true -> csize W t < 2 ^ 31 -> z = csize W t -> mok m -> inr_ W (TInt W false) z /\ rep m (z mod MOD) z.
Proof.
  intros Wt Hs -> Hm. pose proof (csize_nn t Wt).
  assert (I : inr_ W (TInt W false) (csize W t)) by (cbn [inr_]; destruct HW; subst W; lia).
  split; auto. apx rep_val; [exact Hm| |exact I]. apx vty_int. destruct HW; subst W; reflexivity.
Qed.
Lemma x_sizet k t : EX (S k) (ESizeT t).
Proof.
  case0. bt. mi. norm Hp. unfold reg_X in *. tmovi H Hp r1 E1 Eq1. tpush H Hp r2 m2 Eq2. rewrite E1 in H.
  assert (Ew : type_width W t true false = csize W t) by (unfold type_width; apply width_true). rewrite Ew in *.
  match goal with X : (_ <? _) = true |- _ => apply Z.ltb_lt in X end.
  destruct (size_res t m (csize W t)) as [I R]; auto. fin K; eauto. kty. apply Some_inj in Ht0 as <-. exact I.
Qed.
Lemma x_sizee k e : EX (S k) (ESizeE e).
Proof.
  case0. destruct (ty2 W funs (tys (vars E)) e) as [[c v]|] eqn:E2; [|discriminate]. destruct (ty3 _ _ _ _ _ _ HV E2) as (C1 & _ & W1 & W2 & V2).
  rewrite C1 in HC. bt. mi. vtx V2. norm Hp. unfold reg_X in *. tmovi H Hp r1 E1 Eq1. tpush H Hp r2 m2 Eq2. rewrite E1 in H.
  match goal with X : (_ <? _) = true, Y : (_ =? _) = true |- _ => apply Z.ltb_lt in X; apply Z.eqb_eq in Y; rename Y into Ey end.
  assert (Ew : type_width W v true false = csize W c) by (unfold type_width; rewrite width_true; auto). rewrite Ew in *.
  destruct (size_res c m (csize W c)) as [I R]; auto. fin K; eauto. kty. apply Some_inj in Ht0 as <-. exact I.
Qed.
Lemma x_asg k a b : LX k a -> EX k b -> LX k b -> EX (S k) (EAsg a b).
Proof.
  intros IHa IHb ILb. case0.
  destruct (ty2 W funs (tys (vars E)) a) as [[c v]|] eqn:Ea; [|discriminate]. destruct (ty2 W funs (tys (vars E)) b) as [[t2 v2]|] eqn:Eb; [|discriminate].
  destruct (ty3 _ _ _ _ _ _ HV Ea) as (C1 & _ & W1 & U1 & V1). destruct (ty3 _ _ _ _ _ _ HV Eb) as (C2 & _ & W2 & U2 & V2).
  rewrite C1 in HC. destruct (is_struct c) eqn:Ns.
  { destruct c as [| | | |u0 id sz]; try discriminate Ns. clear Ns. bt.
    match goal with X : ty_eqb _ v = true, Y : ty_eqb _ v2 = true, Z0 : ty_eqb _ t2 = true |- _ => apply ty_eqb_eq in X, Y, Z0; subst t2 v2 v end.
    match goal with X : (_ =? 0) = true |- _ => apply Z.eqb_eq in X; rename X into Ek end.
    destruct HC as [_ HC]. mi. vtx V1. cbn [is_struct] in *. mj.
    match goal with X : codegen_lvalue _ _ _ a _ = Some (?w, _, _) |- _ => assert (w = csize W (TStruct u0 id sz)) as -> by (eapply lvw; [exact HV|exact Ea|reflexivity|eassumption|exact X]) end. cbn [csize] in *.
    assert (Hsz : 0 <= sz) by (pose proof (csize_nn _ W1) as X; exact X).
    fsx HV. norm Hp. plc Hp Hp1. plc Hp Hp2. unfold reg_X, reg_Y in *.
    eapply IHa; [exact HC|eassumption|eassumption|exact HV|exact Hp1|exact H|lia|].
    clear H. intros ad s1 r1 m1 f1 HQ1 Ra H. cbv beta in HQ1.
    eapply ILb; [exact HQ1|eassumption|eassumption|exact HV|exact Hp2|exact H|rewrite zlen_cons; lia|].
    clear H. intros bd s2 r2 m2 f2 HQ2 Rb H. cbv beta in HQ2. destruct HQ2 as (Ip & Iq & Mp & Mq & Dj & HQ).
    tpop H Hp r3 E3 Eq3. tpop H Hp r4 E4 Eq4. rewrite <- (Eq4 0) in E3 by lia.
    eapply r_copy; [exact H|exact E4|exact E3|lia|lia|exact Hsz|exact Ip|exact Iq|exact Mp|exact Mq|exact Dj|exact Hp|].
    clear H Hp. intros r5 m5 p5 H Hp ->.
    tpush H Hp r6 m6 Eq6.
    fin (K 0 (setmem s2 (copyv (cmem s2) ad bd sz))); [exact HQ| | |exact H].
    - kty. rewrite C1 in Ht0. apply Some_inj in Ht0 as <-. reflexivity.
    - destruct m as [k1|]; [|cbn in Ek; destruct HW; lia]. cbn [kof] in Ek. subst k1. cbn [rep]. unfold eqm. rewrite !Z.mod_1_r. reflexivity. }
  assert (HC' : cl W funs gvars k E a s (fun (p : Z) (s : cst) => ce W funs gvars k E b s
    (fun (v : Z) (s0 : cst) => writes W E c p v s0 (fun s1 : cst => Q (conv W c v) s1)))) by (destruct c; try discriminate Ns; exact HC).
  clear HC. rename HC' into HC.
  bt. match goal with X : ty_eqb _ _ = true |- _ => apply ty_eqb_eq in X; subst v end.
  mi. vtx V1. rewrite Ns in *. match goal with X : codegen_lvalue _ _ _ _ _ = Some (?w, _, _) |- _ => assert (w = csize W c) as -> by (eapply lvw; eauto using orb_l) end.
  assert (Sz : 1 <= csize W c <= W) by (apx sc_size; auto). pose proof (mk _ Hm) as Hk.
  mj. fsx HV. norm Hp. plc Hp Hp1. plc Hp Hp2. unfold reg_X, reg_Y in *.
  eapply IHa; [exact HC|eassumption|eassumption|exact HV|exact Hp1|exact H|lia|].
  clear H. intros ad s1 r1 m1 f1 HQ1 Ra H. cbv beta in HQ1.
  eapply IHb; [exact HQ1|eassumption|cbn [mok]; lia|eassumption|exact HV|exact Hp2|exact H|rewrite zlen_cons; lia|].
  clear H. intros vv s2 w r2 m2 f2 HQ2 Hv Rw H. top H. cbv beta in HQ2. pose proof (vk _ _ _ _ Hv C2) as Iv.
  tpop H Hp r3 E3 Eq3. tpop H Hp r4 E4 Eq4. rewrite <- (Eq4 0) in E3 by lia.
  eapply r_write; [exact H|reflexivity|reflexivity|exact W1|exact E4|exact Ra| |exact HQ2|exact Hp|].
  { rewrite E3. eapply eqm_le; [|exact Rw]. lia. }
  clear H. intros s3 m3 HQ3 Eo Ei H. nx Hp. tpush H Hp r5 m5 Eq5. rewrite E3 in H. rewrite <- Eo, <- Ei. fin K; [exact HQ3| | |exact H].
  - kty. rewrite C1 in Ht0. apply Some_inj in Ht0 as <-. apply conv_inr; auto. apx sc_ge1; auto.
  - assert (Rk : rep (Mod (kof m)) w (conv W c vv)) by (eapply conv_rep; eauto; [lia|eapply eqm_le; [|exact Rw]; lia]).
    apx rep_mode; [apx vty_sc; [exact W1|assumption]|apply conv_inr; auto; apx sc_ge1; auto|exact Rg|exact Rk].
Qed.
Lemma x_opasg k o a b : LX k a -> EX k b -> EX (S k) (EOpAsg o a b).
Proof.
  intros IHa IHb. case0.
  destruct (ty2 W funs (tys (vars E)) a) as [[c v]|] eqn:Ea; [|discriminate]. destruct (ty2 W funs (tys (vars E)) b) as [[t2 v2]|] eqn:Eb; [|discriminate].
  destruct (ty3 _ _ _ _ _ _ HV Ea) as (C1 & _ & W1 & U1 & V1). destruct (ty3 _ _ _ _ _ _ HV Eb) as (C2 & _ & W2 & U2 & V2).
  rewrite C1, C2 in HC. bt. match goal with X : ty_eqb _ _ = true |- _ => apply ty_eqb_eq in X; subst v end.
  match goal with X : btype W o c t2 = Some ?rt, Y : bmodes _ _ _ _ _ _ _ = Some (?ma, ?mb0) |- _ => rename X into Et; rename Y into Em; rename rt into rt0; rename ma into ma0; rename mb0 into mb1 end.
  mi1. mi1. match goal with X : codegen_lvalue _ _ _ _ _ = Some (?w, _, _) |- _ => assert (w = csize W c) as -> by (eapply lvw; eauto using orb_l) end.
  assert (Sz : 1 <= csize W c <= W) by (apx sc_size; auto). pose proof (mk _ Hm) as Hk.
  assert (Hk2 : 0 <= Z.max (kof m) (csize W c) <= W) by lia.
  assert (MM : mok ma0 /\ mok mb1) by (apx bm_ok; [exact Hk2|exact Em]). destruct MM as [Ma Mb].
  assert (BT : exists rt, btype W o c t2 = Some rt /\ vty W rt) by (apx bm_bt; [exact W1|exact W2|exact Em]).
  destruct BT as (rt & Et' & Vt). rewrite Et in Et'. apply Some_inj in Et'. subst rt0.
  mj. unfold lbinop in *. mj. vtx V1. vtx V2. fsx HV. norm Hp. plc Hp Hp1. unfold reg_X, reg_Y in *.
  eapply IHa; [exact HC|eassumption|eassumption|exact HV|exact Hp1|exact H|lia|].
  clear H. intros ad s1 r1 m1 f1 HQ1 Ra H. cbv beta in HQ1.
  tpop H Hp r2 E2 Eq2. tpush H Hp r3 m3 Eq3. rewrite E2 in H. rewrite <- (Eq3 1) in E2 by lia.
  apx rd_obj; [exact H|reflexivity|reflexivity|eassumption|exact W1|exact E2|exact Ra|discriminate|discriminate|exact HQ1|eassumption|exact Hp|].
  clear H. intros xv r4 HQ2 Ix E4 Eq4 H. cbv beta in HQ2. nx Hp. tpush H Hp r5 m5 Eq5. rewrite E4 in H. top H. plc Hp Hp2.
  assert (Rx : rep ma0 (xv mod MOD) xv) by (apx rep_val; [exact Ma| |exact Ix]; apx vty_sc; [exact W1|assumption]).
  eapply IHb; [exact HQ2|eassumption|exact Mb|eassumption|exact HV|exact Hp2|exact H|rewrite !zlen_cons; lia|].
  clear H. intros vy s2 wy r6 m6 f6 HQ3 Hv2 Ry H. top H. cbv beta in HQ3.
  destruct (bval W o c t2 xv vy) as [vz|] eqn:Ev; [|contradiction]. cbn [oq] in HQ3.
  destruct (bval_rep W HW o (Z.max (kof m) (csize W c)) c t2 c v2 ma0 mb1 rt vz xv vy (xv mod MOD) wy) as (wz & Ez & Rz & Pz & Iz); eauto using vk.
  plc Hp Hp3. ap binop_ok; [eassumption|exact Hp3|exact H|exact Ez|]. clear H. intros r7 m7 f7 H. top H.
  tpop H Hp r8 E8 Eq8. tpop H Hp r9 E9 Eq9. rewrite <- (Eq9 0) in E8 by lia.
  eapply r_write; [exact H|reflexivity|reflexivity|exact W1|exact E9|exact Ra| |exact HQ3|exact Hp|].
  { rewrite E8. eapply eqm_le; [|exact Pz]. lia. }
  clear H. intros s3 mq HQ4 Eo Ei H. nx Hp. tpush H Hp rq mq2 Eqq. rewrite E8 in H. rewrite <- Eo, <- Ei. fin K; [exact HQ4| | |exact H].
  - kty. rewrite C1 in Ht0. apply Some_inj in Ht0 as <-. apply conv_inr; auto. apx sc_ge1; auto.
  - assert (Rk : rep (Mod (kof m)) wz (conv W c vz)) by (eapply conv_rep; eauto; [apply Vt|lia|eapply eqm_le; [|exact Pz]; lia]).
    apx rep_mode; [apx vty_sc; [exact W1|assumption]|apply conv_inr; auto; apx sc_ge1; auto|eassumption|exact Rk].
Qed.
Lemma x_inc k post0 up a : LX k a -> EX (S k) (EInc post0 up a).
Proof.
  intros IHa. case0.
  destruct (ty2 W funs (tys (vars E)) a) as [[c v]|] eqn:Ea; [|discriminate].
  destruct (ty3 _ _ _ _ _ _ HV Ea) as (C1 & _ & W1 & U1 & V1).
  rewrite C1 in HC. bt. match goal with X : ty_eqb _ _ = true |- _ => apply ty_eqb_eq in X; subst v end.
  set (o := if up then Add else Sub) in *.
  match goal with X : btype W o c tint = Some ?rt, Y : bmodes _ _ ?kk _ _ _ _ = Some ?mm |- _ => rename X into Et; rename Y into Em; rename rt into rt0; set (kk0 := kk) in *; rename mm into mm0 end.
  destruct mm0 as [ma0 mb1].
  assert (Sz : 1 <= csize W c <= W) by (apx sc_size; auto). pose proof (mk _ Hm) as Hk.
  assert (Hk2 : csize W c <= kk0 <= W) by (subst kk0; destruct post0; lia).
  assert (Hk3 : post0 = false -> kof m <= kk0) by (intros ->; subst kk0; lia). clearbody kk0.
  assert (MM : mok ma0 /\ mok mb1) by (apx bm_ok; [|exact Em]; lia). destruct MM as [Ma Mb].
  assert (Wi : wfty W tint = true) by (cbn; destruct HW; subst W; reflexivity).
  assert (BT : exists rt, btype W o c tint = Some rt /\ vty W rt) by (apx bm_bt; [exact W1|exact Wi|exact Em]).
  destruct BT as (rt & Et' & Vt). rewrite Et in Et'. apply Some_inj in Et'. subst rt0.
  assert (Vc : vty W c) by (apx vty_sc; [exact W1|assumption]).
  assert (Rep1 : rep mb1 (1 mod MOD) 1) by (apx rep_val; [exact Mb|apx vty_tint|cbn; lia]).
  assert (R1 : 0 <= 1 mod MOD < MOD) by (apply Z.mod_pos_bound, MOD_pos, HW).
  assert (Stp : forall xv vz, inr_ W c xv -> bval W o c tint xv 1 = Some vz ->
     exists wz, mb W o c tint (xv mod MOD) (1 mod MOD) = Some wz /\ 0 <= wz < MOD /\ rep (Mod kk0) wz vz /\ inr_ W rt vz).
  { intros xv vz Ix Ev. assert (Rx : rep ma0 (xv mod MOD) xv) by (apx rep_val; [exact Ma|exact Vc|exact Ix]).
    assert (0 <= xv mod MOD < MOD) by (apply Z.mod_pos_bound, MOD_pos, HW).
    destruct (bval_rep W HW o kk0 c tint c tint ma0 mb1 rt vz xv 1 (xv mod MOD) (1 mod MOD)) as (wz & Ez & Rz & Pz & Iz); auto; try lia; [cbn; lia|].
    eauto 10. }
  destruct post0.
  - mi1. mi1. match goal with X : codegen_lvalue _ _ _ _ _ = Some (?w, _, _) |- _ => assert (w = csize W c) as -> by (eapply lvw; eauto using orb_l) end.
    mj. unfold lbinop in *. mj. vtx V1. fsx HV. norm Hp. plc Hp Hp1. unfold reg_X, reg_Y in *.
    repeat match goal with X : Some ?a = Some ?b |- _ => apply Some_inj in X; subst b end.
    eapply IHa; [exact HC|eassumption|eassumption|exact HV|exact Hp1|exact H|lia|].
    clear H. intros ad s1 r1 m1 f1 HQ1 Ra H. cbv beta in HQ1.
    tpop H Hp r2 E2 Eq2.
    apx rd_obj; [exact H|reflexivity|reflexivity|eassumption|exact W1|exact E2|exact Ra|discriminate|discriminate|exact HQ1|eassumption|exact Hp|].
    clear H. intros xv r4 HQ2 Ix E4 Eq4 H. cbv beta in HQ2. nx Hp. rewrite <- (Eq4 1) in E2 by lia.
    tpush H Hp r5 m5 Eq5. rewrite E4 in H. top H. rewrite <- (Eq5 0) in E4 by lia. rewrite <- (Eq5 1) in E2 by lia.
    tpush H Hp r6 m6 Eq6. rewrite E2 in H. rewrite <- (Eq6 0) in E4 by lia.
    tpush H Hp r7 m7 Eq7. rewrite E4 in H. tmovi H Hp r8 E8 Eq8. tpush H Hp r9 m9 Eq9. rewrite E8 in H.
    destruct (bval W o c tint xv 1) as [vz|] eqn:Ev; [|contradiction]. cbn [oq] in HQ2.
    destruct (Stp xv vz Ix Ev) as (wz & Ez & Rz & Pz & Iz).
    plc Hp Hp3. ap binop_ok; [eassumption|exact Hp3|exact H|exact Ez|]. clear H. intros rA mA fA H.
    tpop H Hp rB EB EqB. tpop H Hp rC EC EqC. rewrite <- (EqC 0) in EB by lia.
    eapply r_write; [exact H|reflexivity|reflexivity|exact W1|exact EC|exact Ra| |exact HQ2|exact Hp|].
    { rewrite EB. eapply eqm_le; [|exact Pz]. lia. }
    clear H. intros s3 mq HQ4 Eo Ei H. nx Hp. rewrite <- Eo, <- Ei. fin K; [exact HQ4| | |exact H].
    + kty. rewrite C1 in Ht0. apply Some_inj in Ht0 as <-. exact Ix.
    + apx rep_val; [exact Hm|exact Vc|exact Ix].
  - mi1. mi1. match goal with X : codegen_lvalue _ _ _ _ _ = Some (?w, _, _) |- _ => assert (w = csize W c) as -> by (eapply lvw; eauto using orb_l) end.
    mj. unfold lbinop in *. mj. vtx V1. fsx HV. norm Hp. plc Hp Hp1. unfold reg_X, reg_Y in *.
    repeat match goal with X : Some ?a = Some ?b |- _ => apply Some_inj in X; subst b end.
    eapply IHa; [exact HC|eassumption|eassumption|exact HV|exact Hp1|exact H|lia|].
    clear H. intros ad s1 r1 m1 f1 HQ1 Ra H. cbv beta in HQ1.
    tpop H Hp r2 E2 Eq2. tpush H Hp r3 m3 Eq3. rewrite E2 in H. rewrite <- (Eq3 1) in E2 by lia.
    apx rd_obj; [exact H|reflexivity|reflexivity|eassumption|exact W1|exact E2|exact Ra|discriminate|discriminate|exact HQ1|eassumption|exact Hp|].
    clear H. intros xv r4 HQ2 Ix E4 Eq4 H. cbv beta in HQ2. nx Hp. tpush H Hp r5 m5 Eq5. rewrite E4 in H. top H.
    tmovi H Hp r8 E8 Eq8. tpush H Hp r9 m9 Eq9. rewrite E8 in H.
    destruct (bval W o c tint xv 1) as [vz|] eqn:Ev; [|contradiction]. cbn [oq] in HQ2.
    destruct (Stp xv vz Ix Ev) as (wz & Ez & Rz & Pz & Iz).
    plc Hp Hp3. ap binop_ok; [eassumption|exact Hp3|exact H|exact Ez|]. clear H. intros rA mA fA H.
    tpop H Hp rB EB EqB. tpop H Hp rC EC EqC. rewrite <- (EqC 0) in EB by lia.
    eapply r_write; [exact H|reflexivity|reflexivity|exact W1|exact EC|exact Ra| |exact HQ2|exact Hp|].
    { rewrite EB. eapply eqm_le; [|exact Pz]. lia. }
    clear H. intros s3 mq HQ4 Eo Ei H. nx Hp. tpush H Hp rq mq2 Eqq. rewrite EB in H. rewrite <- Eo, <- Ei. fin K; [exact HQ4| | |exact H].
    + kty. rewrite C1 in Ht0. apply Some_inj in Ht0 as <-. apply conv_inr; auto. apx sc_ge1; auto.
    + specialize (Hk3 eq_refl). assert (Rk : rep (Mod (kof m)) wz (conv W c vz)) by (eapply conv_rep; eauto; [apply Vt|lia|eapply eqm_le; [|exact Pz]; lia]).
      apx rep_mode; [exact Vc|apply conv_inr; auto; apx sc_ge1; auto|eassumption|exact Rk].
Qed.
(** Comparing [X] with zero. *)
Lemma r_test L mem base ws m0 r m p k f o i c l a (b : bool) w : St L mem base ws m0 r m ->
  placed p (HC (HAlu Axor 1 1) :: h_jump_cond_reg_reg c l 0 1 ++ k) -> r 0 = w -> lab l = Some a ->
  (c = EQ /\ b = (w =? 0) \/ c = NE /\ b = negb (w =? 0)) ->
  (forall r' f', St L mem base ws m0 r' m -> r' 0 = w ->
     wp F (MS r' m (cb + (if b then a else p + ilen W (HAlu Axor 1 1) + hsize (h_jump_cond_reg_reg c l 0 1))) f' o i mp)) ->
  wp F (MS r m (cb + p) f o i mp).
Proof.
  intros H Hp Ew Hl Hc K. unfold h_jump_cond_reg_reg in *. cbn [app] in Hp.
  talu H Hp r1 E1 Eq1. rewrite Z.lxor_nilpotent in E1. rewrite <- (Eq1 0) in Ew by lia.
  ap r_cmpjump; [exact H|exact Hp|exact Hl| |].
  - instantiate (1 := b). rewrite E1, Ew. destruct Hc as [[-> ->]|[-> ->]]; reflexivity.
  - intros f'. cbn [hsize] in K. rewrite Z.add_0_r in K. rewrite <- Z.add_assoc. apply K; auto.
Qed.
Lemma lab_of2 p c l k m : codeok cb bytes m -> placed p (HC (HAlu Axor 1 1) :: h_jump_cond_reg_reg c l 0 1 ++ k) -> exists a, lab l = Some a.
Proof. intros Hm [_ [_ Hp]]. eapply lab_of; eauto. Qed.
Lemma lab1 p h l k m : placed p (HC h :: k) -> codeok cb bytes m -> hlabel h = Some l -> exists a, lab l = Some a.
Proof. intros Hp Hm Hl. eapply lab_of; eauto. Qed.
Lemma eqm0 a b : eqm 0 a b.
Proof. unfold eqm. change (2 ^ (8 * 0)) with 1. now rewrite !Z.mod_1_r. Qed.
Lemma b2i_01 v : v = 0 \/ v = 1 -> b2i (negb (v =? 0)) = v.
Proof. intros [-> | ->]; reflexivity. Qed.
Lemma b2i_nz b : b2i b = 0 \/ b2i b = 1. Proof. destruct b; auto. Qed.
Lemma vok_bool E e b : boolish e = true -> (forall t, ctype W funs (tys (vars E)) e = Some t -> t = tint) -> vok E e (b2i b).
Proof. intros Hb Ht. split; [intros t Et; rewrite (Ht t Et); apply b2i_tint|intros _; apply b2i_nz]. Qed.
Lemma x_and k a b : EX k a -> EX k b -> EX (S k) (EAnd a b).
Proof.
  intros IHa IHb. case0. apply andb_true_iff in HS as [Sa Sb].
  assert (Sb' : supp W funs (tys (vars E)) m b = true /\ (m = Truth \/ m = Mod 0 \/ boolish b = true)).
  { destruct m as [kk|]; [|auto]. apply andb_true_iff in Sb as [G Sb]. split; auto. apply orb_true_iff in G as [G|G]; auto. apply Z.eqb_eq in G. subst kk; auto. }
  destruct Sb' as [Sb' Gb]. clear Sb. unfold reg_X, reg_Y in *. mj. fsx HV. norm Hp. plc Hp Hp1.
  assert (Vb : forall bb, vok E (EAnd a b) (b2i bb)) by (intros; apply vok_bool; [reflexivity|cbn; congruence]).
  eapply IHa; [exact HC|eassumption|exact I|eassumption|exact HV|exact Hp1|exact H|lia|].
  clear H. intros vx s1 wx r1 m1 f1 HQ1 Hv1 Rx H. top H. cbv beta in HQ1.
  tpop H Hp r2 E2 Eq2. tpush H Hp r3 m3 Eq3. rewrite E2 in H. rewrite <- (Eq3 0) in E2 by lia.
  destruct (lab_of2 _ _ _ _ _ (st_code _ _ _ _ _ _ _ _ _ _ _ _ _ H) Hp) as [al La].
  eapply r_test; [exact H|exact Hp|exact E2|exact La|left; split; reflexivity|]. clear H. intros r4 f4 H E4. nx Hp. plc Hp Hp3. pose proof Hp as Hq. nx Hp. plc Hp Hp4.
  destruct Hp as [Hl _]. rewrite Hl in La. apply Some_inj in La. subst al.
  cbn [rep] in Rx. destruct (Z.eqb_spec wx 0) as [E0|E0].
  - assert (vx = 0) as -> by (apply Rx; auto). cbn in HQ1. fin K; [exact HQ1|exact (Vb false)| |exact H]. rewrite E0. apx rep_refl.
  - destruct (Z.eqb_spec vx 0) as [E1|E1]; [exfalso; apply E0, Rx, E1|].
    ap r_pop; [exact H|exact Hq|side|side|]. clear H. intros r5 H _ _.
    eapply IHb; [exact HQ1|exact Sb'|exact Hm|eassumption|exact HV|exact Hp4|exact H|lia|].
    clear H. intros vy s2 wy r6 m6 f6 HQ2 Hv2 Ry H. cbv beta in HQ2. fin K; [exact HQ2|apply Vb| |exact H].
    destruct Gb as [-> |[-> |Gb]].
    + cbn [rep] in *. destruct (Z.eqb_spec vy 0); cbn; split; intros; try lia; apply Ry; auto.
    + apply eqm0.
    + destruct Hv2 as [_ Hv2]. rewrite b2i_01; auto.
Qed.
Lemma x_or k a b : EX k a -> EX k b -> EX (S k) (EOr a b).
Proof.
  intros IHa IHb. case0.
  assert (SS : exists m1, mok m1 /\ supp W funs (tys (vars E)) m1 a = true /\ supp W funs (tys (vars E)) m b = true /\
    (m = Truth /\ m1 = Truth \/ m = Mod 0 /\ m1 = Truth \/ m1 = Mod W /\ boolish a = true /\ boolish b = true)).
  { destruct m as [kk|]; [|bt; exists Truth; auto 6]. destruct (Z.eqb_spec kk 0) as [-> |N]; bt.
    - exists Truth. split; [exact I|]. split; [assumption|]. split; [assumption|]. right; left; split; reflexivity.
    - exists (Mod W). split; [cbn; destruct HW; lia|]. auto 8. }
  destruct SS as (ma & Ma & Sa & Sb & Gm). clear HS. unfold reg_X, reg_Y in *. mj. fsx HV. norm Hp. plc Hp Hp1.
  assert (Vb : forall bb, vok E (EOr a b) (b2i bb)) by (intros; apply vok_bool; [reflexivity|cbn; congruence]).
  eapply IHa; [exact HC|exact Sa|exact Ma|eassumption|exact HV|exact Hp1|exact H|lia|].
  clear H. intros vx s1 wx r1 m1 f1 HQ1 Hv1 Rx H. top H. cbv beta in HQ1.
  assert (Z0 : wx = 0 <-> vx = 0).
  { destruct Gm as [[_ ->]|[[_ ->]|(-> & Ga & _)]]; [exact Rx|exact Rx|].
    destruct Hv1 as [_ Hv1]. rewrite (rep_word W wx vx Rg Rx). destruct (Hv1 Ga) as [-> | ->]; [rewrite Z.mod_0_l by (pose proof (MOD_pos W HW); lia); lia|].
    rewrite Z.mod_small; [lia|]. unfold X86Sem.MOD. destruct HW; subst W; lia. }
  tpop H Hp r2 E2 Eq2. tpush H Hp r3 m3 Eq3. rewrite E2 in H. rewrite <- (Eq3 0) in E2 by lia.
  destruct (lab_of2 _ _ _ _ _ (st_code _ _ _ _ _ _ _ _ _ _ _ _ _ H) Hp) as [al La].
  eapply r_test; [exact H|exact Hp|exact E2|exact La|right; split; reflexivity|]. clear H. intros r4 f4 H E4. nx Hp. plc Hp Hp3. pose proof Hp as Hq. nx Hp. plc Hp Hp4.
  destruct Hp as [Hl _]. rewrite Hl in La. apply Some_inj in La. subst al.
  destruct (Z.eqb_spec wx 0) as [E0|E0]; cbn [negb]; destruct (Z.eqb_spec vx 0) as [E1|E1]; try (exfalso; tauto).
  - ap r_pop; [exact H|exact Hq|side|side|]. clear H. intros r5 H _ _.
    eapply IHb; [exact HQ1|exact Sb|exact Hm|eassumption|exact HV|exact Hp4|exact H|lia|].
    clear H. intros vy s2 wy r6 m6 f6 HQ2 Hv2 Ry H. cbv beta in HQ2. fin K; [exact HQ2|apply Vb| |exact H].
    destruct Gm as [[-> _]|[[-> _]|(_ & _ & Gb)]].
    + cbn [rep] in *. destruct (Z.eqb_spec vy 0); cbn; split; intros; try lia; apply Ry; auto.
    + apply eqm0.
    + destruct Hv2 as [_ Hv2]. rewrite b2i_01; auto.
  - fin K; [exact HQ1|exact (Vb true)| |exact H].
    destruct Gm as [[-> _]|[[-> _]|(-> & Ga & _)]].
    + cbn [rep]. lia.
    + apply eqm0.
    + destruct Hv1 as [_ Hv1]. destruct (Hv1 Ga) as [->|E3]; [lia|]. subst vx. apx rep_mode; [apx vty_tint|exact (b2i_tint W true)|exact Rg|].
      cbn [rep]. eapply eqm_le; [|exact Rx]. apply mk, Hm.
Qed.
Lemma x_cond k c a b : EX k c -> EX k a -> EX k b -> EX (S k) (ECond c a b).
Proof.
  intros IHc IHa IHb. case0. destruct (ctype W funs (tys (vars E)) (ECond c a b)) as [t|] eqn:Ect; [|contradiction].
  destruct (ctype W funs (tys (vars E)) a) as [t1|] eqn:C1; [|discriminate]. destruct (ctype W funs (tys (vars E)) b) as [t2|] eqn:C2; [|discriminate].
  bt. pose proof (mk _ Hm) as Hk.
  assert (KA : forall (e : expr) te v s' w r' m' f', ctype W funs (tys (vars E)) e = Some te -> wfty W te = true -> conv_ok W (kof m) te t = true -> vok E e v -> Q (conv W t v) s' -> 
     rep (Mod (kof m)) w v -> St (live E) (cmem s') base (w :: ws) m0 r' m' ->
     wp F (MS r' m' (cb + (p + hsize code)) f' (cout s') (cin s') mp)).
  { intros e te v s' w r' m' f' Ce We Co Hv HQ Rw HH. top HH. pose proof (vk _ _ _ _ Hv Ce) as Iv.
    assert (It : inr_ W t (conv W t v)) by (apply conv_inr; auto; apx sc_ge1; auto).
    eapply K; [exact HQ| | |exact HH].
    - split; [|discriminate]. rewrite Ect. intros t' Ht'. apply Some_inj in Ht' as <-. exact It.
    - apx rep_mode; [apx vty_sc; [|eassumption]; assumption|exact It|exact Rg|]. eapply conv_rep; eauto. lia. }
  clear K.
  unfold reg_X, reg_Y in *. mj. fsx HV. norm Hp. plc Hp Hp1.
  eapply IHc; [exact HC|eassumption|exact I|eassumption|exact HV|exact Hp1|exact H|lia|].
  clear H. intros vx s1 wx r1 m1 f1 HQ1 Hv1 Rx H. cbv beta in HQ1.
  tpop H Hp r2 E2 Eq2. pose proof (st_code _ _ _ _ _ _ _ _ _ _ _ _ _ H) as Hcd.
  destruct (lab_of2 _ _ _ _ _ Hcd Hp) as [al La].
  eapply r_test; [exact H|exact Hp|exact E2|exact La|left; split; reflexivity|]. clear H. intros r4 f4 H E4. nx Hp. plc Hp Hp3. plc Hp Hp4.
  destruct (lab1 _ _ _ _ _ Hp Hcd eq_refl) as [al2 La2]. pose proof Hp as Hp5. nx Hp5. destruct Hp5 as [Hl Hp5]. plc Hp5 Hp6. destruct Hp5 as [Hl2 _].
  rewrite Hl in La. apply Some_inj in La. subst al. rewrite Hl2 in La2. apply Some_inj in La2. subst al2.
  cbn [rep] in Rx. destruct (Z.eqb_spec wx 0) as [E0|E0]; destruct (Z.eqb_spec vx 0) as [E1|E1]; try (exfalso; tauto).
  - eapply IHb; [exact HQ1|eassumption|exact Hk|eassumption|exact HV|exact Hp6|exact H|lia|].
    clear H. intros vy s2 wy r6 m6 f6 HQ2 Hv2 Ry H. cbv beta in HQ2. fin KA; [exact C2|assumption|assumption|exact Hv2|exact HQ2|exact Ry|exact H].
  - eapply IHa; [exact HQ1|eassumption|exact Hk|eassumption|exact HV|exact Hp4|exact H|lia|].
    clear H. intros vy s2 wy r6 m6 f6 HQ2 Hv2 Ry H. cbv beta in HQ2.
    ap r_jump; [exact H|exact Hp|exact Hl2|].
    fin KA; [exact C1|assumption|assumption|exact Hv2|exact HQ2|exact Ry|exact H].
Qed.
(** The value of a narrowing cast: the low bytes of the word, extended. *)
Lemma cast_val n sg w x : wfty W (TInt n sg) = true -> 0 <= w < MOD -> eqm n w x -> n < W ->
  (if sg then sgnn n (w mod 2 ^ (8 * n)) else w mod 2 ^ (8 * n)) = conv W (TInt n sg) x.
Proof. intros Hw Rw Ex Hn. unfold eqm in Ex. rewrite Ex. destruct sg; reflexivity. Qed.
Lemma x_cast k t e : EX k e -> EX (S k) (ECast t e).
Proof.
  intros IH. case0. destruct (ty2 W funs (tys (vars E)) e) as [[c v]|] eqn:E2; [|discriminate].
  destruct (ty3 _ _ _ _ _ _ HV E2) as (C1 & _ & W1 & U1 & V1). rewrite C1 in HC. pose proof (mk _ Hm) as Hk.
  apply andb_true_iff in HS as [HS1 HS]. repeat (apply andb_true_iff in HS1 as [HS1 ?]).
  assert (Sz : 1 <= csize W t <= W) by (apx sc_size; auto).
  assert (Ewt : width_of W t false = csize W t) by (apply width_csize, scalar_arr; assumption).
  assert (It : forall x, inr_ W t (conv W t x)) by (intros; apply conv_inr; auto; apx sc_ge1; auto).
  assert (Vt : vty W t) by (apx vty_sc; assumption).
  mi1. mi1. mi1. mi1. match goal with X : lift (vt _ _ _) _ = Some _ |- _ => apply lift_inv in X; destruct X as (Xv & -> & Xs) end. vtx V1.
  apply pair_equal_spec in Xs as [-> ->]. unfold type_width in *. destruct (width_of W t false <? width_of W v false) eqn:Lt; try (apply andb_true_iff in HS as [HSa HS]).
  - mj. fsx HV. unfold reg_X, reg_SP in *. norm Hp. plc Hp Hp1. rewrite Ewt in *. apply Z.ltb_lt in Lt.
    assert (Wv : width_of W v false <= W).
    { destruct v as [n s0| | | |]; try discriminate; cbn [width_of]; try lia; try (destruct HW; lia). apply wf_int in U1; auto; apply isz_pos in U1; auto; lia. }
    eapply IH; [exact HC|exact HS|cbn; lia|eassumption|exact HV|exact Hp1|exact H|lia|].
    clear H. intros vx s1 wx r1 m1 f1 HQ1 Hv1 Rx H. top H. cbv beta in HQ1.
    assert (T4 : rd (Wn W) m1 (r1 4) = wx /\ 0 <= r1 4 < MOD).
    { destruct (St_top W slim STOP cb GB bytes HW Hslim Hstop Hdis _ _ _ _ _ _ _ _ H) as (T1 & _ & T2 & _). split; auto. apply (st_regs _ _ _ _ _ _ _ _ _ _ _ _ _ H). }
    destruct T4 as [T4 T5].
    ap r_load; [exact H|exact Hp|side|side|eassumption| |lia|].
    { intros Ew. rewrite Ew, Z.eqb_refl. apply andb_false_r. }
    clear H. intros r2 H Er2 Eq2. nx Hp. rewrite Z.add_0_r in Er2.
    assert (Ev : r2 0 = conv W t vx mod MOD).
    { rewrite Er2. unfold ldv. f_equal. rewrite (rd_low W slim STOP cb bytes funs glo HW Hslim Hstop Hdis Hcb HF (Z.to_nat (csize W t)) (Wn W)); [|unfold Wn; lia|apply (st_bytes _ _ _ _ _ _ _ _ _ _ _ _ _ H)].
      rewrite T4, pow256 by lia. destruct t as [n sg| | | |]; try discriminate; [|cbn [csize] in *; lia].
      cbn [csize is_sgn] in *. destruct (Z.eqb_spec n W); [lia|]. cbn [negb]. rewrite andb_true_r. apply cast_val; auto. lia. }
    eapply r_drop with (vs := [wx]) (n := 1); [eassumption|eassumption|eassumption|eassumption|exact H|exact Hp|reflexivity|lia|].
    clear H. intros r3 H Eq3. nx Hp. rewrite <- (Eq3 0) in Ev by lia. tpush H Hp r4 m4 Eq4. rewrite Ev in H. fin K; [exact HQ1| | |exact H].
    + kty. apply Some_inj in Ht0 as <-. apply It.
    + apx rep_val; [exact Hm|exact Vt|apply It].
  - mj. fsx HV. rewrite ?app_nil_r in *.
    eapply IH; [exact HC|eassumption|exact Hk|eassumption|exact HV|exact Hp|exact H|lia|].
    clear H. intros vx s1 wx r1 m1 f1 HQ1 Hv1 Rx H. top H. cbv beta in HQ1. eapply K; [exact HQ1| | |exact H].
    + kty. apply Some_inj in Ht0 as <-. apply It.
    + apx rep_mode; [exact Vt|apply It|exact Rg|]. eapply conv_rep; eauto using vk. lia.
Qed.
Lemma a_nil k : AX (S k) ANil.
Proof.
  intros E s Q ts loc fp fs lb u code st' base ws m0 r mm p f HC HS HG HV Hp H Hfp K.
  rewrite cargs_eq in HC; rewrite codegen_params_eq in HG; rewrite sargs_eq in HS.
  unfold cargs_body, codegen_params_body, sargs_body in HC, HG, HS; cbv beta iota zeta in HC, HG, HS. destruct ts; [|discriminate]. destruct st'. mi.
  cbn [hsize] in K. rewrite Z.add_0_r in K. apply (K [] s []); auto.
Qed.
Lemma arep_len ts : forall vs ws, arep W ts vs ws -> zlen ws = zlen ts.
Proof. induction ts as [|t ts IH]; intros [|v vs] [|w ws]; cbn [arep]; try contradiction; auto. intros [_ H]. rewrite !zlen_cons. f_equal. eauto. Qed.
Lemma arf E loc fp l ts fs lb u c fs' lb' : VR (vars E) loc fp -> sargs W funs (tys (vars E)) ts l = true ->
  codegen_params W glo loc l (fs, lb) = Some (u, c, (fs', lb')) -> fs' = fs + zlen ts /\ u = zlen ts.
Proof. intros HV. eapply ar_fs; eauto. apx VR_ty; eauto. Qed.
Lemma a_cons k e l : EX k e -> AX k l -> AX (S k) (ACons e l).
Proof.
  intros IHe IHl E s Q ts loc fp fs lb u code st' base ws m0 r mm p f HC HS HG HV Hp H Hfp K.
  rewrite cargs_eq in HC; rewrite codegen_params_eq in HG; rewrite sargs_eq in HS.
  unfold cargs_body, codegen_params_body, sargs_body in HC, HG, HS; cbv beta iota zeta in HC, HG, HS. destruct ts as [|t ts]; [discriminate|]. destruct st'.
  apply andb_true_iff in HS as [HS Sl]. apply andb_true_iff in HS as [HS Se]. apply andb_true_iff in HS as [HS _]. bt.
  mi. match goal with H : (if ?b then _ else _) _ = Some _ |- _ => destruct b; mi end.
  destruct (arf _ _ _ _ _ _ _ _ _ _ _ HV Sl ltac:(eassumption)) as [Ef _]. norm Hp. plc Hp Hp1. rewrite app_nil_r in *.
  assert (Sz : 1 <= csize W t <= W) by (apx sc_size; auto).
  eapply IHl; [exact HC|exact Sl|eassumption|exact HV|exact Hp1|exact H|lia|].
  clear H. intros vs s1 ws' r1 m1 f1 HQ1 Ra H. cbv beta in HQ1. pose proof (arep_len _ _ _ Ra) as Ln.
  eapply IHe; [exact HQ1|exact Se|cbn; lia|eassumption|exact HV|exact Hp|exact H|rewrite zlen_app; lia|].
  clear H. intros vx s2 wx r2 m2 f2 HQ2 Hv Rx H. cbv beta in HQ2. change (St (live E) (cmem s2) base ((wx :: ws') ++ ws) m0 r2 m2) in H. fin K; [exact HQ2| |exact H]. cbn [arep]. auto.
Qed.
(** A call pushes the return address. *)
Lemma r_call L mem base ws m0 r m p k f o i l a : St L mem base ws m0 r m -> placed p (HC (HCall l) :: k) -> lab l = Some a ->
  0 <= cb + (p + ilen W (HCall l)) < MOD ->
  (forall r' m', St L mem base (cb + (p + ilen W (HCall l)) :: ws) m0 r' m' -> (forall q, q <> 4 -> r' q = r q) ->
     wp F (MS r' m' (cb + a) f o i mp)) ->
  wp F (MS r m (cb + p) f o i mp).
Proof.
  intros H Hp La Rr K. assert (WP : 0 < W) by (destruct HW; lia). destruct H as [H1 H2 Hcb' H3 H4 H5 H6 H7 H8 H9 H10 H11] eqn:HE. clear HE.
  eapply wp_call; [exact H3|exact Hp|exact La|]. intros Hl. pose proof (zlen_nonneg ws).
  assert (Hr4 := H1 4). assert (W * zlen ws >= 0) by nia.
  apply K; [|intros; apply upd_other; congruence]. constructor; auto.
  - apply regs_upd; auto. lia.
  - now apply wrb_bytes.
  - apply (codeok_push W slim cb bytes HW); auto. unfold sdis. lia.
  - rewrite upd_same, zlen_cons. lia.
  - intros x Hx. rewrite wrb_out; [auto|]. rewrite Wn_W by assumption. destruct (H9 x Hx) as [[|] _]; lia.
  - rewrite upd_same. cbn [stk]. split.
    + rewrite rd_wrb_word by assumption. apply Z.mod_small. exact Rr.
    + rewrite Z.sub_add. eapply (stk_ext W slim STOP cb bytes HW Hslim Hstop Hdis); [|exact H10]. intros y Hy. apply wrb_out. rewrite Wn_W by assumption. lia.
  - eapply (FR_trans W slim STOP cb bytes HW Hslim Hstop Hdis); [exact H11|]. intros x Hx _. apply wrb_out. rewrite Wn_W by assumption. lia.
Qed.
Lemma x_call k g l : AX k l -> CX k -> EX (S k) (ECall g l).
Proof.
  intros IHl IHc. case0. pose proof (mk _ Hm) as Hk.
  assert (SS : sargs W funs (tys (vars E)) (ptys funs g) l = true /\ kof m <= fk W funs g /\
     (forall v, inr_ W (rty funs g) v -> vok E (ECall g l) v) /\ (kof m = 0 \/ vty W (rty funs g))).
  { assert (VO : forall v, (forall t, ctype W funs (tys (vars E)) (ECall g l) = Some t -> t = rty funs g) -> inr_ W (rty funs g) v -> vok E (ECall g l) v).
    { intros v Ht Hi. split; [|discriminate]. intros t Et. rewrite (Ht t Et). exact Hi. }
    unfold ptys, fk, rty in *. cbn [ctype] in VO. destruct (funs g) as [[ps rt body| |]|] eqn:Eg; [| | |discriminate].
    - apply andb_true_iff in HS as [Sa Sr]. split; [exact Sa|]. destruct rt; try (bt; split; [lia|]; split; [intros v; apply VO; congruence|]; right; split; [assumption|discriminate]).
      apply Z.eqb_eq in Sr. split; [lia|]. split; [intros v; apply VO; congruence|auto].
    - apply andb_true_iff in HS as [Sa Sr]. apply Z.leb_le in Sr. split; [exact Sa|]. split; [lia|]. split; [intros v; apply VO; congruence|right; apx vty_tint].
    - split; [exact HS|]. split; [lia|]. split; [intros v; apply VO; congruence|right; apx vty_tint]. }
  destruct SS as (Sa & Sk & Sv & St'). clear HS.
  mi1. mi1. destruct (arf _ _ _ _ _ _ _ _ _ _ _ HV Sa ltac:(eassumption)) as [Ef ->].
  destruct (look_loc g loc); [discriminate|]. destruct (look_glo g glo); [discriminate|]. destruct (look_fun g glo) as [[lbl tl]|] eqn:Lf; [|discriminate].
  mi. norm Hp. plc Hp Hp1. unfold reg_X, reg_SP in *.
  eapply IHl; [exact HC|exact Sa|eassumption|exact HV|exact Hp1|exact H|lia|].
  clear H. intros vs s1 ws' r1 m1 f1 HQ1 Ra H. cbv beta in HQ1. pose proof (arep_len _ _ _ Ra) as Ln.
  pose proof (st_code _ _ _ _ _ _ _ _ _ _ _ _ _ H) as Hcd.
  destruct (lab1 _ _ _ _ _ Hp Hcd eq_refl) as [al La].
  match type of Hp with NMach.placed _ _ _ _ ?p0 _ => set (pc0 := p0) in *; set (ra := cb + (pc0 + ilen W (HCall lbl))) in * end.
  assert (Rra : 0 <= ra < MOD).
  { destruct Hp as [Ha [Hb _]]. destruct (Ha _ Hcd) as (_ & _ & X1 & X2). destruct (Hb _ Hcd) as (_ & _ & X3 & X4).
    assert (0 < ilen W (HAddImm 4 (- - zlen (ptys funs g) * W))) by (unfold ilen; destruct HW; subst W; cbn; lia). lia. }
  eapply r_call; [exact H|exact Hp|exact La|exact Rra|]. clear H. intros r2 m2 H Eq2.
  eapply IHc; [exact HQ1|exact Lf|exact La|exact Ra|exact H|]. clear H. intros v s2 ws'' r3 m3 f3 HQ2 Lw Iv Rv H. nx Hp.
  assert (Rx := st_regs _ _ _ _ _ _ _ _ _ _ _ _ _ H 0). 
  eapply r_drop with (vs := ws'') (n := zlen (ptys funs g)); [eassumption|eassumption|eassumption|eassumption|exact H|exact Hp|lia|lia|].
  clear H. intros r4 H Eq4. nx Hp. rewrite <- (Eq4 0) in Rv, Rx by lia. tpush H Hp r5 m5 Eq5. unfold pc0 in *. fin K; [exact HQ2|apply Sv, Iv| |exact H].
  destruct St' as [E0|Vt].
  - destruct m as [k0|]; cbn [NJudge.kof] in E0; [subst k0; apply eqm0|destruct HW; lia].
  - apx rep_mode; [exact Vt|exact Iv|exact Rx|]. cbn [rep]. eapply eqm_le; [|exact Rv]. lia.
Qed.
(** Members of structures. *)
Lemma mem_code d u id sz m off t s x c s' : dmem funs id m = Some (off, t) -> codegen_member glo (TStruct u id sz) m d s = Some (x, c, s') ->
  x = t /\ c = (if u then [] else [HC (HAddImm d off)]) /\ s' = s.
Proof.
  intros Hd H. apply (proj2 HF) in Hd. unfold codegen_member in H. destruct s, s'. mi. match goal with X : look_mem _ _ _ = Some ?r |- _ => rewrite Hd in X; apply Some_inj in X; subst r end.
  destruct u; mi; repeat split; reflexivity.
Qed.
Lemma r_member d u id sz m off t L mem base ws m0 r mm p k f o i a b (Hd3 : d <> 3) (Hd4 : d <> 4) : St L mem base ws m0 r mm ->
  dmem funs id m = Some (off, t) -> member_addr W funs (TStruct u id sz) m a = Some b -> r d = a -> 0 <= a < MOD ->
  placed p ((if u then [] else [HC (HAddImm d off)]) ++ k) ->
  (forall r' p' f', r' d = b -> 0 <= b < MOD -> (forall q, q <> d -> r' q = r q) -> St L mem base ws m0 r' mm -> placed p' k ->
     p' + hsize k = p + hsize ((if u then [] else [HC (HAddImm d off)]) ++ k) ->
     wp F (MS r' mm (cb + p') f' o i mp)) ->
  wp F (MS r mm (cb + p) f o i mp).
Proof.
  intros H Hd Hm Er Ra Hp K. unfold member_addr in Hm. rewrite Hd in Hm.
  destruct (_ && _) eqn:G in Hm; [|discriminate]. apply andb_true_iff in G as [G1 G2]. apply Z.leb_le in G1. apply Z.ltb_lt in G2. apply Some_inj in Hm.
  destruct u; cbn [app] in Hp.
  - rewrite Z.add_0_r in *. subst b. eapply K; eauto.
  - eapply r_addimm; [exact HW|exact Hslim|exact Hstop|exact Hdis|exact H|exact Hp|exact Hd3|exact Hd4|]. clear H. intros r1 H E1 Eq1. nx Hp. rewrite Er, Z.mod_small in E1 by lia.
    eapply K; [rewrite E1; exact Hm|lia|exact Eq1|exact H|exact Hp|]. cbn [app hsize]. lia.
Qed.
(** The value of a member, given the address of the structure on the stack. *)
Lemma r_mval E t u id sz m base ws m0 r mm p f a (s : cst) Q st code st' x : smem W funs (TStruct u id sz) m = true ->
  member_type funs id m = Some t -> oq (member_addr W funs (TStruct u id sz) m a) (fun a s => reads W E t a s Q) s -> 0 <= a < MOD ->
  codegen_mval W glo (TStruct u id sz) m st = Some (x, code, st') ->
  St (live E) (cmem s) base (a :: ws) m0 r mm -> placed p (HC (HPop 1) :: code) ->
  (forall v r' m' f', Q v s -> inr_ W t v -> vty W t -> St (live E) (cmem s) base (v mod MOD :: ws) m0 r' m' ->
     wp F (MS r' m' (cb + (p + hsize (HC (HPop 1) :: code))) f' (cout s) (cin s) mp)) ->
  wp F (MS r mm (cb + p) f (cout s) (cin s) mp).
Proof.
  intros Sm Mt HO Ra HG H Hp K. unfold smem in Sm. unfold member_type in Mt.
  destruct (dmem funs id m) as [[off t']|] eqn:Ed; [|discriminate]. apply Some_inj in Mt. subst t'.
  destruct (member_addr _ _ _ _ _) as [b|] eqn:Ea; [|contradiction]. cbn [oq] in HO.
  unfold codegen_mval in HG. destruct st, st'. mi. match goal with X : codegen_member _ _ _ _ _ = Some _ |- _ => apply (mem_code _ _ _ _ _ _ _ _ _ _ _ Ed) in X; destruct X as (-> & -> & X) end. mi.
  assert (Nv : t <> TVoid) by (intros ->; exact HO).
  assert (Ns : is_struct t = false) by (destruct t; auto; destruct HO).
  assert (Na : is_agg t = is_arr t) by (unfold is_agg; rewrite Ns; apply orb_false_r).
  rewrite Na in *. unfold reg_Y in *. norm Hp. tpop H Hp r1 E1 Eq1. 
  eapply r_member with (d := 1); [lia|lia|exact H|exact Ed|exact Ea|exact E1|exact Ra|exact Hp|].
  clear H. intros r2 p2 f2 E2 Rb Eq2 H Hp2 Es. clear Hp.
  assert (K' : forall v r' m' f', Q v s -> inr_ W t v -> St (live E) (cmem s) base (v mod MOD :: ws) m0 r' m' ->
     wp F (MS r' m' (cb + (p2 + hsize (x4 ++ [HC (HPush 1)]))) f' (cout s) (cin s) mp)).
  { intros v r' m' f' HQ HI HH. rewrite Es. replace (p + _ + _) with (p + hsize (HC (HPop 1) :: (if u then [] else [HC (HAddImm 1 off)]) ++ x4 ++ [HC (HPush 1)])).
    - eapply K; eauto. split; auto.
    - cbn [hsize]. lia. }
  clear K. destruct (is_arr t) eqn:Ea2.
  - mj. cbn [app] in *. tpush H Hp2 r4 m4 Eq4. rewrite E2 in H. destruct t; try discriminate. rewrite <- (Z.mod_small b MOD) in H by lia. fin K'; eauto.
  - assert (Sc : scalar t = true) by (destruct t; try discriminate; auto; congruence).
    assert (Ew : type_width W t false false = csize W t) by (apx width_sc; auto). rewrite Ew in *. mj. cbn [app] in *.
    eapply rd_objg with (e := 1); [exact HW|exact Hslim|exact Hstop|exact Hdis|exact Hcb|exact HF|exact H|reflexivity|reflexivity|exact Sc|exact Sm|exact E2|exact Rb|discriminate|discriminate|exact HO|eassumption|exact Hp2|].
    clear H. intros v r3 HQ HI E3 _ H. nx Hp2. tpush H Hp2 r4 m4 Eq4. rewrite E3 in H. fin K'; eauto.
Qed.
Lemma l_maddr E t u id sz m base ws m0 r mm p f a (s : cst) (Q : Z -> cst -> Prop) st code st' x : smem W funs (TStruct u id sz) m = true ->
  member_type funs id m = Some t -> oq (member_addr W funs (TStruct u id sz) m a) Q s -> 0 <= a < MOD ->
  codegen_maddr W glo (TStruct u id sz) m st = Some (x, code, st') ->
  St (live E) (cmem s) base (a :: ws) m0 r mm -> placed p (HC (HPop 0) :: code) ->
  (forall b r' m' f', Q b s -> 0 <= b < MOD -> St (live E) (cmem s) base (b :: ws) m0 r' m' ->
     wp F (MS r' m' (cb + (p + hsize (HC (HPop 0) :: code))) f' (cout s) (cin s) mp)) ->
  wp F (MS r mm (cb + p) f (cout s) (cin s) mp).
Proof.
  intros Sm Mt HO Ra HG H Hp K. unfold smem in Sm. unfold member_type in Mt.
  destruct (dmem funs id m) as [[off t']|] eqn:Ed; [|discriminate]. apply Some_inj in Mt. subst t'.
  destruct (member_addr _ _ _ _ _) as [b|] eqn:Ea; [|contradiction]. cbn [oq] in HO.
  unfold codegen_maddr in HG. destruct st, st'. mi. match goal with X : codegen_member _ _ _ _ _ = Some _ |- _ => apply (mem_code _ _ _ _ _ _ _ _ _ _ _ Ed) in X; destruct X as (-> & -> & X) end. mi.
  unfold reg_X in *. norm Hp. tpop H Hp r1 E1 Eq1. cbn [app] in *.
  eapply r_member with (d := 0); [lia|lia|exact H|exact Ed|exact Ea|exact E1|exact Ra|exact Hp|].
  clear H. intros r2 p2 f2 E2 Rb Eq2 H Hp2 Es. clear Hp.
  tpush H Hp2 r4 m4 Eq4. rewrite E2 in H.
  replace (p2 + ilen W (HPush 0)) with (p + hsize (HC (HPop 0) :: (if u then [] else [HC (HAddImm 0 off)]) ++ [HC (HPush 0)])); [eapply K; eauto|].
  cbn [hsize] in *. lia.
Qed.
(** [e.m] and [e->m]. *)
Lemma x_dot k e m : LX k e -> EX (S (S k)) (EDot e m).
Proof.
  intros IH E s Q md loc fp fs lb u code st' base ws m0 r mm p f HC HS Hm HG HV Hp H Hfp K.
  rewrite ce_eq in HC; rewrite supp_eq in HS; rewrite codegen_rvalue_eq in HG.
  unfold ce_body, supp_body, codegen_rvalue_body in HC, HS, HG; cbv beta iota zeta in HC, HS, HG. destruct st' as [? ?].
  destruct (ctype W funs (tys (vars E)) (EDot e m)) as [t|] eqn:Ect; [|contradiction]. pose proof Ect as Ect0.
  rewrite cl_eq in HC. unfold cl_body in HC. cbv beta iota zeta in HC. cbn [ctype] in Ect.
  destruct (ty2 W funs (tys (vars E)) e) as [[c v]|] eqn:E2; [|discriminate]. destruct (ty3 _ _ _ _ _ _ HV E2) as (C1 & _ & W1 & U1 & V1).
  rewrite C1 in HC, Ect. bt. match goal with X : ty_eqb _ _ = true |- _ => apply ty_eqb_eq in X; subst v end.
  destruct c as [| | | |un id sz]; try discriminate.
  mi. vtx V1. cbn [is_struct] in *. mi. unfold reg_Y in *. norm Hp. plc Hp Hp1.
  eapply IH; [exact HC|eassumption|eassumption|exact HV|exact Hp1|exact H|lia|].
  clear H. intros a s' r1 m1 f1 HQ1 Ra H. cbv beta in HQ1. rewrite ?app_nil_r in *. 
  eapply r_mval; [eassumption|exact Ect|exact HQ1|exact Ra|eassumption|exact H|exact Hp|].
  clear H. intros v r2 m2 f2 HQ2 HI Vt H. fin K; [exact HQ2| | |exact H].
  - split; [|discriminate]. intros t' Ht'. rewrite Ect0 in Ht'. apply Some_inj in Ht' as <-. exact HI.
  - apx rep_val; [exact Hm|exact Vt|exact HI].
Qed.
Lemma x_arrow k e m : EX k e -> EX (S (S k)) (EArrow e m).
Proof.
  intros IH E s Q md loc fp fs lb u code st' base ws m0 r mm p f HC HS Hm HG HV Hp H Hfp K.
  rewrite ce_eq in HC; rewrite supp_eq in HS; rewrite codegen_rvalue_eq in HG.
  unfold ce_body, supp_body, codegen_rvalue_body in HC, HS, HG; cbv beta iota zeta in HC, HS, HG. destruct st' as [? ?].
  destruct (ctype W funs (tys (vars E)) (EArrow e m)) as [t|] eqn:Ect; [|contradiction]. pose proof Ect as Ect0.
  rewrite cl_eq in HC. unfold cl_body in HC. cbv beta iota zeta in HC. cbn [ctype] in Ect.
  destruct (ty2 W funs (tys (vars E)) e) as [[c v]|] eqn:E2; [|discriminate]. destruct (ty3 _ _ _ _ _ _ HV E2) as (C1 & _ & W1 & U1 & V1).
  destruct c as [|c| | |]; try discriminate. destruct v as [|v| | |]; try discriminate.
  rewrite C1 in HC, Ect. cbn [option_map decay] in HC, Ect. bt. match goal with X : ty_eqb _ _ = true |- _ => apply ty_eqb_eq in X; subst v end.
  destruct c as [| | | |un id sz]; try discriminate.
  mi. vtx V1. cbn [arrow_type] in *. match goal with X : Some (TStruct un id sz) = Some _ |- _ => injection X as <- end. cbn [is_struct] in *. mi. unfold reg_Y in *. norm Hp. plc Hp Hp1.
  eapply IH; [exact HC|eassumption|apx mokW|eassumption|exact HV|exact Hp1|exact H|lia|].
  clear H. intros a s' w r1 m1 f1 HQ1 Hv Rw H. cbv beta in HQ1. top H. rewrite ?app_nil_r in *. 
  pose proof (vk _ _ _ _ Hv C1) as Ra. cbn [inr_] in Ra. assert (w = a) as -> by (eapply ptr_word; eauto).
  eapply r_mval; [eassumption|exact Ect|exact HQ1|exact Ra|eassumption|exact H|exact Hp|].
  clear H. intros v r2 m2 f2 HQ2 HI Vt H. fin K; [exact HQ2| | |exact H].
  - split; [|discriminate]. intros t' Ht'. rewrite Ect0 in Ht'. apply Some_inj in Ht' as <-. exact HI.
  - apx rep_val; [exact Hm|exact Vt|exact HI].
Qed.
Lemma l_dot k e m : LX k e -> LX (S k) (EDot e m).
Proof.
  intros IH E s Q loc fp fs lb u code st' base ws m0 r mm p f HC HS HG HV Hp H Hfp K.
  rewrite cl_eq in HC; rewrite slv_eq in HS; rewrite codegen_lvalue_eq in HG.
  unfold cl_body, slv_body, codegen_lvalue_body in HC, HS, HG; cbv beta iota zeta in HC, HS, HG. destruct st' as [? ?].
  destruct (ty2 W funs (tys (vars E)) e) as [[c v]|] eqn:E2; [|discriminate]. destruct (ty3 _ _ _ _ _ _ HV E2) as (C1 & _ & W1 & U1 & V1).
  rewrite C1 in HC. bt. match goal with X : ty_eqb _ _ = true |- _ => apply ty_eqb_eq in X; subst v end.
  destruct c as [| | | |un id sz]; try discriminate.
  mi. vtx V1. cbn [is_struct] in *. mi. match goal with X : (if ?b then _ else _) _ = Some _ |- _ => destruct b; mi end. unfold reg_X in *. norm Hp. plc Hp Hp1.
  eapply IH; [exact HC|eassumption|eassumption|exact HV|exact Hp1|exact H|lia|].
  clear H. intros a s' r1 m1 f1 HQ1 Ra H. cbv beta in HQ1. rewrite ?app_nil_r in *.
  match goal with X : smem _ _ _ _ = true |- _ => pose proof X as Sm; unfold smem in Sm end.
  destruct (dmem funs id m) as [[off t]|] eqn:Ed; [|discriminate]. assert (Mt : member_type funs id m = Some t) by (unfold member_type; now rewrite Ed).
  eapply l_maddr; [eassumption|exact Mt|exact HQ1|exact Ra|eassumption|exact H|exact Hp|].
  clear H. intros b r2 m2 f2 HQ2 Rb H. fin K; [exact HQ2|exact Rb|exact H].
Qed.
Lemma l_arrow k e m : EX k e -> LX (S k) (EArrow e m).
Proof.
  intros IH E s Q loc fp fs lb u code st' base ws m0 r mm p f HC HS HG HV Hp H Hfp K.
  rewrite cl_eq in HC; rewrite slv_eq in HS; rewrite codegen_lvalue_eq in HG.
  unfold cl_body, slv_body, codegen_lvalue_body in HC, HS, HG; cbv beta iota zeta in HC, HS, HG. destruct st' as [? ?].
  destruct (ty2 W funs (tys (vars E)) e) as [[c v]|] eqn:E2; [|discriminate]. destruct (ty3 _ _ _ _ _ _ HV E2) as (C1 & _ & W1 & U1 & V1).
  destruct c as [|c| | |]; try discriminate. destruct v as [|v| | |]; try discriminate.
  rewrite C1 in HC. cbn [option_map decay] in HC. bt. match goal with X : ty_eqb _ _ = true |- _ => apply ty_eqb_eq in X; subst v end.
  destruct c as [| | | |un id sz]; try discriminate.
  mi. vtx V1. cbn [arrow_type] in *. match goal with X : Some (TStruct un id sz) = Some _ |- _ => injection X as <- end. cbn [is_struct] in *. mi.
  match goal with X : (if ?b then _ else _) _ = Some _ |- _ => destruct b; mi end. unfold reg_X in *. norm Hp. plc Hp Hp1.
  eapply IH; [exact HC|eassumption|apx mokW|eassumption|exact HV|exact Hp1|exact H|lia|].
  clear H. intros a s' w r1 m1 f1 HQ1 Hv Rw H. cbv beta in HQ1. top H. rewrite ?app_nil_r in *.
  pose proof (vk _ _ _ _ Hv C1) as Ra. cbn [inr_] in Ra. assert (w = a) as -> by (eapply ptr_word; eauto).
  match goal with X : smem _ _ _ _ = true |- _ => pose proof X as Sm; unfold smem in Sm end.
  destruct (dmem funs id m) as [[off t]|] eqn:Ed; [|discriminate]. assert (Mt : member_type funs id m = Some t) by (unfold member_type; now rewrite Ed).
  eapply l_maddr; [eassumption|exact Mt|exact HQ1|exact Ra|eassumption|exact H|exact Hp|].
  clear H. intros b r2 m2 f2 HQ2 Rb H. fin K; [exact HQ2|exact Rb|exact H].
Qed.
(** All expressions, given that calls of smaller depth are right. *)
Lemma ex0 e : EX 0 e.
Proof. intros E s Q m loc fp fs lb u code st' base ws m0 r mm p f HC. apply ce_0 in HC. contradiction. Qed.
Lemma lx0 e : LX 0 e.
Proof. intros E s Q loc fp fs lb u code st' base ws m0 r mm p f HC. apply cl_0 in HC. contradiction. Qed.
Lemma ax0 l : AX 0 l.
Proof. intros E s Q ts loc fp fs lb u code st' base ws m0 r mm p f HC. apply cargs_0 in HC. contradiction. Qed.
Ltac ex1 := intros E s Q m loc fp fs lb u code st' base ws m0 r mm p f HC; rewrite ce_eq in HC; unfold ce_body in HC; cbv beta iota zeta in HC;
  match type of HC with match ?x with _ => _ end => destruct x; [exfalso; eapply cl_0; exact HC|contradiction] end.
Theorem expr_all k : (forall j, (j < k)%nat -> CX j) -> (forall e, EX k e) /\ (forall e, LX k e) /\ (forall l, AX k l).
Proof.
  induction k as [k IH] using lt_wf_ind. intros HCX. destruct k as [|k].
  { split; [exact ex0|split; [exact lx0|exact ax0]]. }
  destruct (IH k) as (IE & IL & IA); [lia|intros; apply HCX; lia|]. pose proof (HCX k ltac:(lia)) as IC.
  assert (IE2 : forall j, S j = k -> forall e, EX j e).
  { intros j <-. destruct (IH j) as (IE' & _); [lia|intros; apply HCX; lia|]. exact IE'. }
  assert (IL2 : forall j, S j = k -> forall e, LX j e).
  { intros j <-. destruct (IH j) as (_ & IL' & _); [lia|intros; apply HCX; lia|]. exact IL'. }
  split; [|split].
  - intros [z|z|x|e|e|e|e|e|e|e|po up e|t|e|o a b|a b|a b|a b|o a b|a b|a b|f l|t e|c a b|e fld|e fld].
    + apx x_lit. + apx x_chr.
    + destruct k; [ex1|apx x_var].
    + apx x_par; auto.
    + destruct k; [ex1|apx x_deref; auto].
    + apx x_addr; auto. + apx x_plus; auto. + apx x_neg; auto. + apx x_bnot; auto. + apx x_not; auto.
    + apply x_inc; auto. + apply x_sizet. + apply x_sizee. + apx x_bin; auto.
    + destruct k; [ex1|apx x_idx; auto].
    + apply x_comma; auto. + apply x_asg; auto. + apply x_opasg; auto. + apply x_and; auto. + apply x_or; auto.
    + apply x_call; auto. + apply x_cast; auto. + apply x_cond; auto.
    + destruct k; [ex1|apply x_dot; auto].
    + destruct k; [ex1|apply x_arrow; auto].
  - intros e. destruct e; try (intros E s Q loc fp fs lb u code st' base ws m0 r mm p f0 HC; rewrite cl_eq in HC; contradiction).
    + apx l_var. + apx l_par; auto. + apx l_deref; auto. + apx l_idx; auto. + apply l_dot; auto. + apply l_arrow; auto.
  - intros [|e l]; [apply a_nil|apply a_cons; auto].
Qed.
End X.
