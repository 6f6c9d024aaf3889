(** * The machine state relation for C34/C35 and one rule per emitted helper *)
From Coq Require Import ZArith List Lia Bool.
From Verif Require Import Base Asm AsmProof X86 X86Proof X86Sem NMach NPtr CLang NGen NSupp NBin.
Import ListNotations.
Open Scope Z_scope.

(** ** Inversion of the code generation monad *)
Lemma bind_inv {A B} (m : M A) (k : A -> M B) s b c s2 : bind m k s = Some (b, c, s2) ->
  exists a c1 s1 c2, m s = Some (a, c1, s1) /\ k a s1 = Some (b, c2, s2) /\ c = c1 ++ c2.
Proof.
  unfold bind. destruct (m s) as [[[a c1] s1]|]; [|discriminate]. destruct (k a s1) as [[[b' c2] s2']|] eqn:E; [|discriminate].
  intros H. exists a, c1, s1, c2. split; auto. split; congruence.
Qed.
Lemma emit_inv l s u c s2 : emit l s = Some (u, c, s2) -> c = l /\ s2 = s.
Proof. unfold emit. intros H. split; congruence. Qed.
Lemma ret_inv {A} (a : A) s u c s2 : ret a s = Some (u, c, s2) -> u = a /\ c = [] /\ s2 = s.
Proof. unfold ret. intros H. repeat split; congruence. Qed.
Lemma lift_inv {A} (a : option A) s u c s2 : lift a s = Some (u, c, s2) -> a = Some u /\ c = [] /\ s2 = s.
Proof. destruct a; unfold lift, ret, fail; intros H; try discriminate. repeat split; congruence. Qed.
Lemma grow_fs_inv k s u c s2 : grow_fs k s = Some (u, c, s2) -> c = [] /\ s2 = (fst s + k, snd s).
Proof. unfold grow_fs. destruct s. intros H. split; cbn [fst snd]; congruence. Qed.
Lemma get_fs_inv s u c s2 : get_fs s = Some (u, c, s2) -> c = [] /\ s2 = s /\ u = fst s.
Proof. unfold get_fs. destruct s. intros H. repeat split; cbn [fst snd]; congruence. Qed.
Lemma set_fs_inv k s u c s2 : set_fs k s = Some (u, c, s2) -> c = [] /\ s2 = (k, snd s).
Proof. unfold set_fs. destruct s. intros H. split; cbn [fst snd]; congruence. Qed.
Lemma alloc_inv s u c s2 : alloc_label s = Some (u, c, s2) -> c = [] /\ s2 = (fst s, snd s + 1) /\ u = snd s.
Proof. unfold alloc_label. destruct s. intros H. repeat split; cbn [fst snd]; congruence. Qed.


Lemma wrb_cong n : forall m m' a v v' x, v mod 256 ^ Z.of_nat n = v' mod 256 ^ Z.of_nat n -> a <= x < a + Z.of_nat n -> wrb n m a v x = wrb n m' a v' x.
Proof.
  induction n as [|n IH]; intros m m' a v v' x E Hx; [lia|]. cbn [wrb].
  assert (P : 0 < 256 ^ Z.of_nat n) by (apply Z.pow_pos_nonneg; lia).
  replace (256 ^ Z.of_nat (S n)) with (256 * 256 ^ Z.of_nat n) in E by (rewrite Nat2Z.inj_succ, Z.pow_succ_r by lia; reflexivity).
  rewrite !Z.rem_mul_r in E by lia. pose proof (Z.mod_pos_bound v 256). pose proof (Z.mod_pos_bound v' 256).
  assert (v mod 256 = v' mod 256 /\ (v / 256) mod 256 ^ Z.of_nat n = (v' / 256) mod 256 ^ Z.of_nat n) as [E1 E2] by lia.
  destruct (Z.eq_dec x a) as [->|Hn].
  - rewrite !wrb_out by lia. rewrite !upd_same. exact E1.
  - apply IH; auto. lia.
Qed.
Lemma pow256 n : 0 <= n -> 256 ^ Z.of_nat (Z.to_nat n) = 2 ^ (8 * n).
Proof. intros. rewrite Z2Nat.id by lia. change 256 with (2 ^ 8). rewrite <- Z.pow_mul_r by lia. reflexivity. Qed.
Section R.
Variables (W slim STOP cb GB : Z) (bytes : list Z) (lab : Z -> option Z).
Hypothesis HW : W = 4 \/ W = 8.
Hypothesis Hslim : 0 < slim.
Hypothesis Hstop : STOP < MOD W.
Hypothesis Hdis : STOP <= cb \/ cb + zlen bytes <= slim.
Set Default Proof Using "HW Hslim Hstop Hdis".
Notation placed := (placed W cb bytes lab).
Notation hsize := (hsize W).
Notation wp := (wp W slim).
Notation MOD := (MOD W).
Notation ilen := (ilen W).
Notation rdw := (rd (Wn W)).

Fixpoint stk (m : Z -> Z) (a : Z) (ws : list Z) : Prop :=
  match ws with [] => True | w :: ws => rdw m a = w /\ stk m (a + W) ws end.
Definition sep (L : list (Z * Z)) (base : Z) : Prop :=
  forall a, inlive L a -> (a < slim \/ base <= a) /\ ~ (cb <= a < cb + zlen bytes).
Definition FR (L : list (Z * Z)) (lo : Z) (m m' : Z -> Z) : Prop :=
  forall a, a < slim \/ lo <= a -> ~ inlive L a -> m' a = m a.
(** [base]: the stack pointer on entry, when memory was [m0]; [ws]: the words pushed since. *)
Record St (L : list (Z * Z)) (mem : Z -> Z) (base : Z) (ws : list Z) (m0 : Z -> Z) (r m : Z -> Z) : Prop := {
  st_regs : regs_ok W r;
  st_bytes : bytes_ok m;
  st_cb : bytes_ok mem;
  st_code : codeok cb bytes m;
  st_glo : r 3 = GB;
  st_sp : r 4 = base - W * zlen ws;
  st_lo : slim <= r 4;
  st_hi : base <= STOP;
  st_agree : forall a, inlive L a -> m a = mem a;
  st_sep : sep L base;
  st_stk : stk m (r 4) ws;
  st_fr : FR L base m0 m }.

Lemma WP : 0 < W. Proof. destruct HW; lia. Qed.
Lemma stk_ext m m' : forall ws a, (forall x, a <= x < a + W * zlen ws -> m' x = m x) -> stk m a ws -> stk m' a ws.
Proof.
  pose proof WP. induction ws as [|w ws IH]; intros a H1 H2; cbn [stk] in *; auto. destruct H2 as [H2 H3].
  rewrite zlen_cons in H1. pose proof (zlen_nonneg ws). split.
  - rewrite <- H2. apply rd_ext. intros x Hx. rewrite Wn_W in Hx by assumption. apply H1. nia.
  - apply IH; auto. intros x Hx. apply H1. lia.
Qed.
Lemma sep_nl L base a : sep L base -> slim <= a < base -> ~ inlive L a.
Proof. intros H Ha Hl. destruct (H a Hl) as [[|] _]; lia. Qed.
Lemma sep_le L base base' : sep L base -> base' <= base -> sep L base'.
Proof. intros H Hb a Ha. destruct (H a Ha) as [[|] D]; split; auto; lia. Qed.
Lemma FR_refl L lo m : FR L lo m m. Proof. intros a _ _. reflexivity. Qed.
Lemma FR_trans L lo m m' m'' : FR L lo m m' -> FR L lo m' m'' -> FR L lo m m''.
Proof. intros H1 H2 a Ha Hn. rewrite H2, H1; auto. Qed.
Lemma FR_le L lo lo' m m' : FR L lo m m' -> lo <= lo' -> FR L lo' m m'.
Proof. intros H Hl a Ha Hn. apply H; auto. lia. Qed.

(** Starting afresh from the current stack pointer, and coming back. *)
Lemma St_start L mem base ws m0 r m : St L mem base ws m0 r m -> St L mem (r 4) [] m r m.
Proof.
  intros [H1 H2 Hcb H3 H4 H5 H6 H7 H8 H9 H10 H11]. pose proof WP. pose proof (zlen_nonneg ws). constructor; auto.
  - cbn. lia.
  - nia.
  - eapply sep_le; eauto. nia.
  - exact I.
  - apply FR_refl.
Qed.
Lemma stk_app m : forall ws vs a, stk m a (ws ++ vs) <-> stk m a ws /\ stk m (a + W * zlen ws) vs.
Proof.
  induction ws as [|w ws IH]; intros vs a; cbn [app stk].
  - change (zlen (@nil Z)) with 0. rewrite Z.mul_0_r, Z.add_0_r. split; [intros; split; auto|intros [_ H]; exact H].
  - rewrite IH, zlen_cons. replace (a + W + W * zlen ws) with (a + W * (1 + zlen ws)) by ring. split; [intros (H1 & H2 & H3)|intros ((H1 & H2) & H3)]; auto.
Qed.
Lemma St_back L mem base ws m0 r m mem' vs r' m' : St L mem base ws m0 r m -> St L mem' (r 4) vs m r' m' ->
  St L mem' base (vs ++ ws) m0 r' m'.
Proof.
  intros H H'. pose proof WP. pose proof (zlen_nonneg ws). pose proof (st_sp _ _ _ _ _ _ _ H) as E. pose proof (st_sp _ _ _ _ _ _ _ H') as E'.
  constructor; try apply H'.
  - rewrite zlen_app. lia.
  - apply H.
  - apply H.
  - apply stk_app. split; [apply H'|]. replace (r' 4 + W * zlen vs) with (r 4) by lia.
    eapply stk_ext; [|apply (st_stk _ _ _ _ _ _ _ H)]. intros x Hx.
    pose proof (st_lo _ _ _ _ _ _ _ H). apply (st_fr _ _ _ _ _ _ _ H'); [lia|].
    eapply sep_nl; [apply (st_sep _ _ _ _ _ _ _ H)|lia].
  - eapply FR_trans; [apply H|]. eapply FR_le; [apply H'|nia].
Qed.

(** Changing registers other than 3 and 4. *)
Lemma St_regs L mem base ws m0 r m r' : St L mem base ws m0 r m -> regs_ok W r' -> r' 3 = r 3 -> r' 4 = r 4 ->
  St L mem base ws m0 r' m.
Proof. intros [H1 H2 Hcb H3 H4 H5 H6 H7 H8 H9 H10 H11] R E3 E4. constructor; auto; try congruence. Qed.
Lemma St_upd L mem base ws m0 r m x v : St L mem base ws m0 r m -> 0 <= v < MOD -> x <> 3 -> x <> 4 ->
  St L mem base ws m0 (upd r x v) m.
Proof.
  intros H Hv H3 H4. eapply St_regs; [exact H| | |]; [apply regs_upd; auto; apply H|apply upd_other; congruence|apply upd_other; congruence].
Qed.
Section Rules.
Variables (L : list (Z * Z)) (mem m0 : Z -> Z) (base : Z) (F : mst -> Prop) (p : Z) (k : list hop) (f : option flags) (o i mp : list Z).
Lemma r_push ws r m x : St L mem base ws m0 r m -> placed p (HC (HPush x) :: k) ->
  (forall r' m', St L mem base (r x :: ws) m0 r' m' -> (forall q, q <> 4 -> r' q = r q) ->
     wp F (MS r' m' (cb + (p + ilen (HPush x))) f o i mp)) ->
  wp F (MS r m (cb + p) f o i mp).
Proof.
  intros H Hp K. pose proof WP. destruct H as [H1 H2 Hcb H3 H4 H5 H6 H7 H8 H9 H10 H11] eqn:HE. clear HE.
  eapply wp_push; [exact H3|exact Hp|]. intros Hl. pose proof (zlen_nonneg ws).
  assert (Hr4 := H1 4). assert (W * zlen ws >= 0) by nia.
  apply K; [|intros; apply upd_other; congruence]. constructor; auto.
  - apply regs_upd; auto. lia.
  - now apply wrb_bytes.
  - apply (codeok_push W slim cb bytes HW); auto. unfold sdis. lia.
  - rewrite upd_same, zlen_cons. lia.
  - intros a Ha. rewrite wrb_out; [auto|]. rewrite Wn_W by assumption. destruct (H9 a Ha) as [[|] _]; lia.
  - rewrite upd_same. cbn [stk]. split.
    + rewrite rd_wrb_word by assumption. apply Z.mod_small, H1.
    + rewrite Z.sub_add. eapply stk_ext; [|exact H10]. intros y Hy. apply wrb_out. rewrite Wn_W by assumption. lia.
  - eapply FR_trans; [exact H11|]. intros a Ha _. apply wrb_out. rewrite Wn_W by assumption. lia.
Qed.
Lemma St_drop ws w r m r' : St L mem base (w :: ws) m0 r m -> regs_ok W r' -> r' 3 = r 3 -> r' 4 = r 4 + W ->
  St L mem base ws m0 r' m.
Proof.
  intros [H1 H2 Hcb H3 H4 H5 H6 H7 H8 H9 H10 H11] R E3 E4. pose proof WP. rewrite zlen_cons in H5. constructor; auto; try congruence; try lia.
  destruct H10 as [_ H10]. now rewrite E4.
Qed.
Lemma St_top ws w r m : St L mem base (w :: ws) m0 r m -> rdw m (r 4) = w /\ 0 <= w < MOD /\ 0 <= r 4 + W < MOD /\ r 4 + W <= base.
Proof.
  intros H. pose proof WP. pose proof (st_sp _ _ _ _ _ _ _ H) as E. rewrite zlen_cons in E. pose proof (zlen_nonneg ws).
  destruct (st_stk _ _ _ _ _ _ _ H) as [Hw _]. split; auto. split.
  - rewrite <- Hw. apply rd_word_range; auto. apply H.
  - pose proof (st_hi _ _ _ _ _ _ _ H). pose proof (st_lo _ _ _ _ _ _ _ H). nia.
Qed.
Lemma r_pop ws w r m x : St L mem base (w :: ws) m0 r m -> placed p (HC (HPop x) :: k) -> x <> 3 -> x <> 4 ->
  (forall r', St L mem base ws m0 r' m -> r' x = w -> (forall q, q <> 4 -> q <> x -> r' q = r q) ->
     wp F (MS r' m (cb + (p + ilen (HPop x))) f o i mp)) ->
  wp F (MS r m (cb + p) f o i mp).
Proof.
  intros H Hp H3 H4 K. destruct (St_top _ _ _ _ H) as (Et & Rw & Rs & _).
  eapply wp_pop; [apply H|exact Hp|exact Rs|]. apply K.
  - eapply St_drop; [exact H| | |].
    + apply regs_upd; [|rewrite Et; exact Rw]. apply regs_upd; [apply H|exact Rs].
    + rewrite !upd_other by congruence. reflexivity.
    + rewrite upd_other by congruence. apply upd_same.
  - rewrite upd_same. exact Et.
  - intros. rewrite !upd_other by congruence. reflexivity.
Qed.
Lemma r_movi ws r m x n : St L mem base ws m0 r m -> placed p (HC (HMovImm x n) :: k) -> x <> 3 -> x <> 4 ->
  (forall r', St L mem base ws m0 r' m -> r' x = n mod MOD -> (forall q, q <> x -> r' q = r q) ->
     wp F (MS r' m (cb + (p + ilen (HMovImm x n))) f o i mp)) ->
  wp F (MS r m (cb + p) f o i mp).
Proof.
  intros H Hp H3 H4 K. eapply wp_movimm; [apply H|exact Hp|]. apply K; [|apply upd_same|intros; apply upd_other; congruence].
  apply St_upd; auto. apply Z.mod_pos_bound, MOD_pos, HW.
Qed.
Lemma r_mov ws r m x y : St L mem base ws m0 r m -> placed p (HC (HAlu Amov x y) :: k) -> x <> 3 -> x <> 4 ->
  (forall r', St L mem base ws m0 r' m -> r' x = r y -> (forall q, q <> x -> r' q = r q) ->
     wp F (MS r' m (cb + (p + ilen (HAlu Amov x y))) f o i mp)) ->
  wp F (MS r m (cb + p) f o i mp).
Proof.
  intros H Hp H3 H4 K. eapply wp_mov; [apply H|exact Hp|]. apply K; [|apply upd_same|intros; apply upd_other; congruence].
  apply St_upd; auto. apply H.
Qed.
Definition aluv (a : alu) (x y : Z) : option Z :=
  match a with
  | Aadd => Some ((x + y) mod MOD) | Asub => Some ((x - y) mod MOD) | Aand => Some (Z.land x y)
  | Aor => Some (Z.lor x y) | Axor => Some (Z.lxor x y) | _ => None end.
Lemma r_alu ws r m a x y v : St L mem base ws m0 r m -> placed p (HC (HAlu a x y) :: k) -> x <> 3 -> x <> 4 ->
  aluv a (r x) (r y) = Some v ->
  (forall r', St L mem base ws m0 r' m -> r' x = v -> (forall q, q <> x -> r' q = r q) ->
     wp F (MS r' m (cb + (p + ilen (HAlu a x y))) None o i mp)) ->
  wp F (MS r m (cb + p) f o i mp).
Proof.
  intros H Hp H3 H4 E K. pose proof (st_regs _ _ _ _ _ _ _ H x) as Rx. pose proof (st_regs _ _ _ _ _ _ _ H y) as Ry.
  pose proof (MOD_pos W HW).
  destruct a; cbn [aluv] in E; try discriminate; apply Some_inj in E; subst v;
    (first [eapply wp_add; [apply H|exact Hp|] | eapply wp_sub; [apply H|exact Hp|] | eapply wp_and; [apply H|exact Hp|]
           | eapply wp_or; [apply H|exact Hp|] | eapply wp_xor; [apply H|exact Hp|] ]);
    (apply K; [|apply upd_same|intros; apply upd_other; congruence]; apply St_upd; auto).
  - apply Z.mod_pos_bound. lia.
  - now apply lor_range.
  - now apply land_range.
  - apply Z.mod_pos_bound. lia.
  - now apply lxor_range.
Qed.
Lemma r_addimm ws r m d n : St L mem base ws m0 r m -> placed p (HC (HAddImm d n) :: k) -> d <> 3 -> d <> 4 ->
  (forall r', St L mem base ws m0 r' m -> r' d = (r d + n) mod MOD -> (forall q, q <> d -> r' q = r q) ->
     wp F (MS r' m (cb + (p + ilen (HAddImm d n))) None o i mp)) ->
  wp F (MS r m (cb + p) f o i mp).
Proof.
  intros H Hp H3 H4 K. pose proof (MOD_pos W HW). eapply wp_addimm; [apply H|exact Hp|exact H4|].
  apply K; [|apply upd_same|intros; apply upd_other; congruence]. apply St_upd; auto. apply Z.mod_pos_bound. lia.
Qed.
Lemma r_imul ws r m x y : St L mem base ws m0 r m -> placed p (HC (HImul x y) :: k) -> x <> 3 -> x <> 4 ->
  (forall r', St L mem base ws m0 r' m -> r' x = (r x * r y) mod MOD -> (forall q, q <> x -> r' q = r q) ->
     wp F (MS r' m (cb + (p + ilen (HImul x y))) None o i mp)) ->
  wp F (MS r m (cb + p) f o i mp).
Proof.
  intros H Hp H3 H4 K. eapply wp_imul; [apply H|exact Hp|]. apply K; [|apply upd_same|intros; apply upd_other; congruence].
  apply St_upd; auto. apply Z.mod_pos_bound, MOD_pos, HW.
Qed.
(** Discarding words. *)
Lemma r_drop n ws vs r m d : St L mem base (vs ++ ws) m0 r m -> placed p (HC (HAddImm 4 d) :: k) -> zlen vs = n -> d = n * W ->
  (forall r', St L mem base ws m0 r' m -> (forall q, q <> 4 -> r' q = r q) ->
     wp F (MS r' m (cb + (p + ilen (HAddImm 4 d))) None o i mp)) ->
  wp F (MS r m (cb + p) f o i mp).
Proof.
  intros H Hp Hn Hd K. pose proof WP as HWP. pose proof (zlen_nonneg vs) as Zv. pose proof (zlen_nonneg ws) as Zw.
  destruct H as [H1 H2 Hcb H3 H4 H5 H6 H7 H8 H9 H10 H11]. rewrite zlen_app in H5.
  eapply wp_growsp; [exact H3|exact Hp|exact H6|lia|nia|]. intros _. apply K; [|intros; apply upd_other; congruence].
  constructor; auto.
  - apply regs_upd; auto. nia.
  - rewrite upd_same. nia.
  - rewrite upd_same. nia.
  - rewrite upd_same. apply stk_app in H10 as [_ H10]. replace (r 4 + d) with (r 4 + W * zlen vs) by nia. exact H10.
Qed.
Lemma r_cmpjump ws r m c l x y a b : St L mem base ws m0 r m -> placed p (HC (HAlu Acmp x y) :: HC (HJcc c l) :: k) ->
  lab l = Some a -> ccsem W c (r x) (r y) = Some b ->
  (forall f', wp F (MS r m (cb + (if b then a else p + ilen (HAlu Acmp x y) + ilen (HJcc c l))) f' o i mp)) ->
  wp F (MS r m (cb + p) f o i mp).
Proof.
  intros H Hp Hl Hb K. eapply wp_cmp; [apply H|exact Hp|]. destruct Hp as [_ Hp].
  eapply wp_jcc; [apply H|exact Hp|exact Hl| |apply K].
  apply cond_cc; auto; apply H.
Qed.
Lemma r_jump ws r m l a : St L mem base ws m0 r m -> placed p (HC (HJump l) :: k) -> lab l = Some a ->
  wp F (MS r m (cb + a) f o i mp) -> wp F (MS r m (cb + p) f o i mp).
Proof. intros H Hp Hl K. eapply wp_jump; [apply H|exact Hp|exact Hl|exact K]. Qed.
(** Memory changed only in the word below the stack pointer. *)
Lemma St_below ws r m r' m' : St L mem base ws m0 r m -> regs_ok W r' -> bytes_ok m' -> codeok cb bytes m' ->
  r' 3 = r 3 -> r' 4 = r 4 -> (forall a, a < slim \/ a < r 4 - W \/ r 4 <= a -> m' a = m a) -> St L mem base ws m0 r' m'.
Proof.
  intros [H1 H2 Hcb H3 H4 H5 H6 H7 H8 H9 H10 H11] R B C E3 E4 Ea. pose proof (zlen_nonneg ws). pose proof WP.
  assert (W * zlen ws >= 0) by nia. constructor; auto; try congruence.
  - intros a Ha. rewrite Ea; auto. destruct (H9 a Ha) as [[|] _]; lia.
  - rewrite E4. eapply stk_ext; [|exact H10]. intros x Hx. apply Ea. lia.
  - eapply FR_trans; [exact H11|]. intros a Ha _. apply Ea. lia.
Qed.
Lemma r_mulp ws r m x t w : St L mem base ws m0 r m -> placed p (mul_for_pointer_arith x w ++ k) -> x = 0 \/ x = 1 ->
  ref_type_width W t = Some w -> okscale w = true ->
  (forall r' m' f', St L mem base ws m0 r' m' -> r' x = (r x * w) mod MOD -> (forall q, q <> x -> r' q = r q) ->
     wp F (MS r' m' (cb + (p + hsize (mul_for_pointer_arith x w))) f' o i mp)) ->
  wp F (MS r m (cb + p) f o i mp).
Proof.
  intros H Hp Hx _ Ow K. apply andb_true_iff in Ow as [O1 O2].
  assert (Hs : 0 <= slim) by lia. assert (D : sdis slim cb bytes (r 4)).
  { unfold sdis. pose proof (st_sp _ _ _ _ _ _ _ H). pose proof (st_hi _ _ _ _ _ _ _ H). pose proof (zlen_nonneg ws). pose proof WP. nia. }
  eapply (mul_ok W slim cb bytes lab HW Hs) with (reg := x) (width := w); [apply H|apply H|apply H|exact D|exact Hx|lia|exact Hp|].
  intros r' m' f' E1 E2 R B C Ea. apply K; auto. eapply St_below; eauto; apply E2; unfold reg_X, reg_Y in *; lia.
Qed.
Lemma r_divp ws r m w : St L mem base ws m0 r m -> placed p (div_for_pointer_arith reg_X w ++ k) -> okscale w = true ->
  (forall r' m' f', St L mem base ws m0 r' m' ->
     r' 0 = (if is_power_of_2 w then (sgn W (r 0) / w) mod MOD else r 0 / w) ->
     wp F (MS r' m' (cb + (p + hsize (div_for_pointer_arith reg_X w))) f' o i mp)) ->
  wp F (MS r m (cb + p) f o i mp).
Proof.
  intros H Hp Ow K. apply andb_true_iff in Ow as [O1 O2].
  assert (Hs : 0 <= slim) by lia. assert (D : sdis slim cb bytes (r 4)).
  { unfold sdis. pose proof (st_sp _ _ _ _ _ _ _ H). pose proof (st_hi _ _ _ _ _ _ _ H). pose proof (zlen_nonneg ws). pose proof WP. nia. }
  eapply (div_ok W slim cb bytes lab HW Hs) with (width := w); [apply H|apply H|apply H|exact D|lia|exact Hp|].
  intros r' m' f' E1 E2 R B C Ea. apply K; auto. eapply St_below; eauto; apply E2; unfold reg_X, reg_Z in *; lia.
Qed.
(** Loads. *)
Definition ldv (m : Z -> Z) (sg : bool) (n a : Z) : Z := (if sg then sgnn n (rd (Z.to_nat n) m a) else rd (Z.to_nat n) m a) mod MOD.
Lemma r_load ws r m sg n d b off : St L mem base ws m0 r m -> placed p (HC (HLoad sg n d b off) :: k) -> d <> 3 -> d <> 4 ->
  okw W n = true -> (n = W -> sg = false) -> 0 <= r b + off < MOD ->
  (forall r', St L mem base ws m0 r' m -> r' d = ldv m sg n (r b + off) -> (forall q, q <> d -> r' q = r q) ->
     wp F (MS r' m (cb + (p + ilen (HLoad sg n d b off))) f o i mp)) ->
  wp F (MS r m (cb + p) f o i mp).
Proof.
  intros H Hp H3 H4 Ok Hsg Ha K.
  assert (Hn : n = 1 \/ n = 2 \/ n = 4 \/ n = W).
  { unfold okw in Ok. repeat rewrite orb_true_iff in Ok. rewrite andb_true_iff in Ok. repeat rewrite Z.eqb_eq in Ok. lia. }
  eapply wp_load; [exact HW|apply H|exact Hp|exact Hn|intros; apply Hsg; lia|exact Ha|apply H|].
  apply K; [|apply upd_same|intros; apply upd_other; congruence].
  apply St_upd; auto. apply Z.mod_pos_bound, MOD_pos, HW.
Qed.
End Rules.

(** Memory of live objects. *)
Lemma rd_live L mem base ws m0 r m a n : St L mem base ws m0 r m -> inblock L a n -> 0 <= n -> rd (Z.to_nat n) m a = rd (Z.to_nat n) mem a.
Proof.
  intros H (b & Hb & H1 & H2) Hn. apply rd_ext. intros x Hx. apply (st_agree _ _ _ _ _ _ _ H). exists b. split; auto. lia.
Qed.
Lemma St_write L mem base ws m0 r m a n w v : St L mem base ws m0 r m -> inblock L a n -> 0 <= n -> eqm n w v ->
  St L (wrb (Z.to_nat n) mem a v) base ws m0 r (wrb (Z.to_nat n) m a w).
Proof.
  intros [H1 H2 Hcb H3 H4 H5 H6 H7 H8 H9 H10 H11] (b & Hb & Hlo & Hhi) Hn E.
  assert (Lv : forall x, a <= x < a + n -> inlive L x) by (intros x Hx; exists b; split; auto; lia).
  assert (Out : forall x, ~ inlive L x -> wrb (Z.to_nat n) m a w x = m x).
  { intros x Hx. apply wrb_out. rewrite Z2Nat.id by lia. destruct (Z_lt_ge_dec x a); [lia|]. destruct (Z_lt_ge_dec x (a + n)); [|lia].
    exfalso. apply Hx, Lv. lia. }
  pose proof WP. pose proof (zlen_nonneg ws). constructor; auto.
  - now apply wrb_bytes.
  - now apply wrb_bytes.
  - unfold codeok in *. eapply at_ext; [|exact H3]. intros x Hx. apply Out. intros Hl. destruct (H9 x Hl) as [_ D]. apply D. exact Hx.
  - intros x Hx. destruct (Z_lt_ge_dec x a) as [|Ha]; [rewrite !wrb_out by lia; auto|].
    destruct (Z_lt_ge_dec x (a + n)) as [|Hb']; [|rewrite !wrb_out by lia; auto].
    apply wrb_cong; [rewrite pow256 by lia; exact E|lia].
  - eapply stk_ext; [|exact H10]. intros x Hx. apply Out. eapply sep_nl; [exact H9|]. nia.
  - eapply FR_trans; [exact H11|]. intros x _ Hx. apply Out. exact Hx.
Qed.

End R.

Ltac mi1 := match goal with
  | H : bind _ _ _ = Some _ |- _ => apply bind_inv in H; destruct H as (? & ? & [? ?] & ? & ? & H & ->)
  | H : emit _ _ = Some _ |- _ => apply emit_inv in H; destruct H as (-> & H)
  | H : ret _ _ = Some _ |- _ => apply ret_inv in H; destruct H as (-> & -> & H)
  | H : lift _ _ = Some _ |- _ => apply lift_inv in H; let E := fresh in destruct H as (E & -> & H); try discriminate E
  | H : grow_fs _ _ = Some _ |- _ => apply grow_fs_inv in H; destruct H as (-> & H); cbn [fst snd] in H
  | H : get_fs _ = Some _ |- _ => apply get_fs_inv in H; destruct H as (-> & H & ->); cbn [fst snd] in *
  | H : set_fs _ _ = Some _ |- _ => apply set_fs_inv in H; destruct H as (-> & H); cbn [fst snd] in H
  | H : alloc_label _ = Some _ |- _ => apply alloc_inv in H; destruct H as (-> & H & ->); cbn [fst snd] in *
  | H : fail _ = Some _ |- _ => discriminate H
  | H : def_label _ _ = Some _ |- _ => unfold def_label in H
  | H : pop _ _ = Some _ |- _ => unfold pop in H
  | H : push _ _ = Some _ |- _ => unfold push in H
  | H : movi _ _ _ = Some _ |- _ => unfold movi in H
  | H : alu2 _ _ _ _ = Some _ |- _ => unfold alu2 in H
  | H : grow_stack _ _ _ = Some _ |- _ => unfold grow_stack in H
  | H : (_, _) = (_, _) |- _ => apply pair_equal_spec in H; destruct H as [-> ->]
  end.
Ltac mi := repeat mi1.
