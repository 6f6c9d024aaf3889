(** * The runtime functions putchar and getchar *)
From Coq Require Import ZArith List Lia Bool.
From Verif Require Import Base Asm AsmProof X86 X86Proof X86Sem NMach NPtr CLang NGen NSupp NBin NRun NBop NEqs NStat NJudge NExpr NExpr2 NExpr3 NExpr4 NStat2 NStmt NSwitch NCall NLink.
Import ListNotations.
Open Scope Z_scope.

(** x86.c:697-705 [syscall_3] (i386) and 800-806 (x86-64 Linux); a register of -1 is not set. *)
Definition mov_opt (d s : Z) : list hop := if 0 <=? s then [HC (HAlu Amov d s)] else [].
Definition syscall_3 (W nr a b c : Z) : list hop :=
  if W =? 4 then [HC (HPush 3)] ++ mov_opt 3 a ++ mov_opt 1 b ++ mov_opt 2 c ++ [HC (HMovImm 0 nr); HC (HInt 128); HC (HPop 3)]
  else mov_opt 7 a ++ mov_opt 6 b ++ mov_opt 2 c ++ [HC (HMovImm 0 nr); HC HSyscall].
(** x86.c:720-730 and 819-830 *)
Definition os_exit (W : Z) := syscall_3 W (if W =? 4 then 1 else 60) reg_X (-1) (-1).
Definition os_read (W : Z) := syscall_3 W (if W =? 4 then 3 else 0) reg_X reg_Y reg_Z.
Definition os_write (W : Z) := syscall_3 W (if W =? 4 then 4 else 1) reg_X reg_Y reg_Z.
(** exe.c:2457-2464 [rt_putchar] *)
Definition rt_putchar (W : Z) : list hop :=
  [HC (HPush reg_X); HC (HMovImm reg_X 1); HC (HAlu Amov reg_Y reg_SP); HC (HMovImm reg_Z 1)] ++ os_write W ++ [HC (HPop reg_X)].
(** exe.c:2483-2497 [rt_fgetc]; [l] is the label it allocates *)
Definition rt_fgetc (W fd l : Z) : list hop :=
  [HC (HPush reg_X); HC (HAlu Amov reg_X fd); HC (HAlu Amov reg_Y reg_SP); HC (HMovImm reg_Z 1)] ++ os_read W ++
  [HC (HPop reg_Z); HC (HMovImm reg_Y 0)] ++ h_jump_cond_reg_reg NE l reg_X reg_Y ++ [HC (HMovImm reg_Z (-1)); HD l; HC (HAlu Amov reg_X reg_Z)].
(** exe.c:2626-2629, 2632-2635: the functions putchar and getchar *)
Definition fun_putchar (W lb : Z) : list hop := [HD lb; HC (HLoad false W reg_X reg_SP W)] ++ rt_putchar W ++ [HC HRet].
Definition fun_getchar (W lb l : Z) : list hop := [HD lb; HC (HMovImm reg_X 0)] ++ rt_fgetc W reg_X l ++ [HC HRet].

Section X.
Variables (W slim STOP cb GB : Z) (bytes : list Z) (lab : Z -> option Z).
Variables (funs : cdecls) (gvars : list (Z * (Z * ty))) (glo : list gbnd) (F : mst -> Prop) (mp : list Z).
Hypothesis HW : W = 4 \/ W = 8.
Hypothesis Hslim : 0 < slim.
Hypothesis Hstop : STOP < MOD W.
Hypothesis Hdis : STOP <= cb \/ cb + zlen bytes <= slim.
Hypothesis Hcb : 0 <= cb /\ cb + zlen bytes <= MOD W.
Hypothesis HF : decl_ok funs glo.
Set Default Proof Using "HW Hslim Hstop Hdis Hcb HF gvars".
Notation placed := (placed W cb bytes lab).
Notation hsize := (hsize W).
Notation wp := (wp W slim).
Notation MOD := (MOD W).
Notation St := (St W slim STOP cb GB bytes).
Notation EX := (EX W slim STOP cb GB bytes lab funs gvars glo F mp).
Notation LX := (LX W slim STOP cb GB bytes lab funs gvars glo F mp).
Notation AX := (AX W slim STOP cb GB bytes lab funs gvars glo F mp).
Notation CX := (CX W slim STOP cb GB bytes lab funs gvars glo F mp).
Notation VR := (VR W GB glo).
Notation vok := (vok W funs).
Ltac ap R ::= eapply R; [exact HW|exact Hslim|exact Hstop|exact Hdis|..].
Ltac apx R ::= eapply R; [exact HW|exact Hslim|exact Hstop|exact Hdis|exact Hcb|exact HF|..].
Notation cs := (cs W funs gvars).
Notation cw := (cw W funs gvars).
Notation sep := (sep slim cb bytes).
Notation FR := (FR slim).
Notation ss := (ss W funs).
Notation sw := (sw W funs).
Notation cgs := (codegen_statement W glo).
Notation cgw := (codegen_swl W glo).
Notation Xt := (Xt W slim cb GB bytes).
Notation XK := (XK W slim cb GB bytes lab F mp).
Notation SX := (SX W slim STOP cb GB bytes lab funs gvars glo F mp).
Ltac plc Hp Hp1 := apply (placed_app _ _ _ _ HW) in Hp as [Hp1 Hp].
Notation CXg := (CXg W slim STOP cb GB bytes lab funs gvars glo F mp).
Lemma byte_of m a w : bytes_ok m -> rd (Wn W) m a = w -> m a = w mod 256.
Proof.
  intros Hb <-. replace (Wn W) with (S (Nat.pred (Wn W))) by (unfold Wn; destruct HW; lia). cbn [rd]. rewrite Z.mul_comm, Z_mod_plus_full. symmetry. apply Z.mod_small, Hb.
Qed.
Lemma St_stk1 L mem base w ws m0 r m b : St L mem base (w :: ws) m0 r m -> 0 <= b < 256 -> St L mem base (w - w mod 256 + b :: ws) m0 r (upd m (r 4) b).
Proof.
  intros H Hb. destruct (St_top W slim STOP cb GB bytes HW Hslim Hstop Hdis _ _ _ _ _ _ _ _ H) as (T1 & T2 & T3 & T4). assert (WP : 0 < W) by (destruct HW; lia).
  destruct H as [H1 H2 Hcb' H3 H4 H5 H6 H7 H8 H9 H10 H11]. rewrite zlen_cons in H5. constructor; auto.
  - intros x. unfold upd. destruct (x =? r 4); [exact Hb|apply H2].
  - unfold codeok in *. eapply at_ext; [|exact H3]. intros x Hx. apply upd_other. lia.
  - rewrite zlen_cons. exact H5.
  - intros x Hx. rewrite upd_other; [apply H8; exact Hx|]. destruct (H9 x Hx) as [[|] _]; lia.
  - destruct H10 as [_ H10]. cbn [stk]. split.
    + rewrite <- (byte_of m (r 4) w H2 T1). replace (Wn W) with (S (Nat.pred (Wn W))) in * by (unfold Wn; lia). cbn [rd] in *. rewrite upd_same.
      rewrite (rd_ext _ m (upd m (r 4) b) (r 4 + 1)); [lia|]. intros x Hx. apply upd_other. lia.
    + eapply (stk_ext W slim STOP cb bytes HW Hslim Hstop Hdis); [|exact H10]. intros x Hx. apply upd_other. lia.
  - intros x Hx Hn. rewrite upd_other; [apply H11; auto|]. lia.
Qed.
Lemma mod1 n : 0 <= n < 256 -> n mod MOD = n.
Proof. intros Hn. apply Z.mod_small. destruct HW as [-> | ->]; unfold X86Sem.MOD; lia. Qed.
Ltac ups := repeat first [rewrite upd_same | rewrite upd_other by discriminate].
Tactic Notation "start32" ident(H) ident(Hp) constr(nr) ident(EW) ident(r) ident(r1) ident(m1) ident(r5) :=
  ap r_push; [exact H|exact Hp|]; intros r1 m1 H1 Eq; nx Hp; destruct (St_top W slim STOP cb GB bytes HW Hslim Hstop Hdis _ _ _ _ _ _ _ _ H1) as (T1 & T2 & T3 & T4);
  pose proof (st_code _ _ _ _ _ _ _ _ _ _ _ _ _ H1) as Hcd; pose proof (st_regs _ _ _ _ _ _ _ _ _ _ _ _ _ H1) as Hr1;
  (eapply wp_mov; [exact Hcd|exact Hp|]); nx Hp; (eapply wp_mov; [exact Hcd|exact Hp|]); nx Hp; (eapply wp_mov; [exact Hcd|exact Hp|]); nx Hp; (eapply wp_movimm; [exact Hcd|exact Hp|]); nx Hp;
  destruct Hp as [Hd Hp]; (eapply wp_h; [exact Hcd|exact Hd|]); cbn [meaning exec]; replace (W =? 4) with true by (rewrite EW; reflexivity); cbn [andb]; change (128 =? 128) with true; cbv iota;
  match goal with |- context [MS ?x m1 _ _ _ _ _] => set (r5 := x) end;
  assert (F0 : r5 0 = nr) by (unfold r5; ups; apply mod1; lia);
  assert (F3 : r5 3 = r 0) by (unfold r5; ups; apply Eq; lia); assert (F1 : r5 1 = r 1) by (unfold r5; ups; apply Eq; lia);
  assert (F2 : r5 2 = r 2) by (unfold r5; ups; apply Eq; lia); assert (F4 : r5 4 = r1 4) by (unfold r5; ups; reflexivity);
  assert (F5 : regs_ok W r5) by (unfold r5; repeat (apply regs_upd; [|first [apply Hr1 | ups; apply Hr1 | apply Z.mod_pos_bound, MOD_pos, HW]]); exact Hr1);
  clearbody r5; unfold sys32; cbn [rg]; rewrite F0, F1, F2, F3.
Lemma r_write L mem base w ws m0 r m p k f o i : St L mem base (w :: ws) m0 r m -> r 0 = 1 -> r 1 = r 4 -> r 2 = 1 -> placed p (os_write W ++ k) ->
  cb + (p + hsize (os_write W)) < MOD ->
  (forall r' m' f', St L mem base (w :: ws) m0 r' m' -> wp F (MS r' m' (cb + (p + hsize (os_write W))) f' (o ++ [w mod 256]) i mp)) ->
  wp F (MS r m (cb + p) f o i mp).
Proof.
  intros H E0 E1 E2 Hp Hpc KN. unfold os_write, reg_X, reg_Y, reg_Z, syscall_3, mov_opt in *. pose proof (st_regs _ _ _ _ _ _ _ _ _ _ _ _ _ H) as Hr. 
  pose proof (st_sp _ _ _ _ _ _ _ _ _ _ _ _ _ H) as Hsp. pose proof (MOD_pos W HW) as MP. assert (M1 : 1 < MOD) by (rewrite <- (mod1 1) by lia; apply Z.mod_pos_bound; exact MP). 
  destruct (Z.eqb_spec W 4) as [EW|EW]; cbn [Z.leb Z.compare app] in *.
  - start32 H Hp 4 EW r r1 m1 r5. rewrite E0, E1, E2. unfold sys. change (4 =? 1) with false. change (4 =? 4) with true. change (1 =? 1) with true. cbv iota. change (Z.to_nat 1) with 1%nat. cbn [seq map mm].
    unfold setr. cbn [rg mm pc fl outp inp maps]. rewrite Z.add_0_r.
    pose proof (st_stk _ _ _ _ _ _ _ _ _ _ _ _ _ H1) as Hs. cbn [stk] in Hs. destruct Hs as (_ & Hw & _). apply byte_of in Hw; [|apply (st_bytes _ _ _ _ _ _ _ _ _ _ _ _ _ H1)].
    pose proof (st_sp _ _ _ _ _ _ _ _ _ _ _ _ _ H1) as Hsp1. rewrite zlen_cons in Hsp1. replace (r1 4 + W) with (r 4) in Hw by lia. rewrite Hw.
    eapply wp_pop; [exact Hcd|exact Hp| |]; [ups; rewrite F4; exact T3|]. fin KN.
    eapply (St_drop W slim STOP cb GB bytes HW Hslim Hstop Hdis); [exact H1| | |].
    + repeat apply regs_upd; auto; ups; rewrite ?F4, ?T1; auto; lia.
    + ups. rewrite F4, T1. symmetry. apply Eq. discriminate.
    + ups. rewrite F4. reflexivity.
  - assert (EW8 : W = 8) by (destruct HW; congruence).
    ap r_mov; [exact H|exact Hp|discriminate|discriminate|]. clear H. intros r1 H A1 B1. nx Hp.
    ap r_mov; [exact H|exact Hp|discriminate|discriminate|]. clear H. intros r2 H A2 B2. nx Hp.
    ap r_mov; [exact H|exact Hp|discriminate|discriminate|]. clear H. intros r3 H A3 B3. nx Hp.
    ap r_movi; [exact H|exact Hp|discriminate|discriminate|]. clear H. intros r5 H A4 B4. nx Hp. pose proof (st_code _ _ _ _ _ _ _ _ _ _ _ _ _ H) as Hcd.
    pose proof Hp as Hpx. destruct Hp as [Hd Hp]. eapply wp_h; [exact Hcd|exact Hd|]. cbn [meaning exec]. replace (W =? 8) with true by (rewrite EW8; reflexivity). cbv iota.
    unfold sys64, sys. cbn [rg]. rewrite A4, mod1 by lia. change (1 =? 60) with false. change (1 =? 1) with true. cbv iota. unfold setr, setfl. cbn [rg mm pc fl outp inp maps].
    rewrite B4, B3, B2, A1, E0 by discriminate. change (1 =? 1) with true. cbv iota. rewrite B4, A3, B2, B1, E2 by discriminate. change (Z.to_nat 1) with 1%nat. cbn [seq map mm].
    rewrite Z.add_0_r. rewrite B4, B3, A2, B1, E1 by discriminate.
    pose proof (st_stk _ _ _ _ _ _ _ _ _ _ _ _ _ H) as Hs. cbn [stk] in Hs. destruct Hs as (Hw & _). apply byte_of in Hw; [|apply (st_bytes _ _ _ _ _ _ _ _ _ _ _ _ _ H)].
    rewrite B4, B3, B2, B1 in Hw by discriminate. rewrite Hw. fin KN.
    apply (St_upd W slim STOP cb GB bytes HW Hslim Hstop Hdis); [|lia|discriminate|discriminate]. apply (St_upd W slim STOP cb GB bytes HW Hslim Hstop Hdis); [exact H| |discriminate|discriminate].
    split; [|exact Hpc]. destruct (Hd _ Hcd) as (_ & _ & D1 & _). pose proof (ilen_nonneg W HSyscall). cbn [hsize]. lia.
Qed.
(** End of file leaves the buffer alone and returns 0. *)
Definition rdw_res (w : Z) (i : list Z) : Z * Z * list Z := match i with [] => (0, w, []) | c :: i' => (1, w - w mod 256 + c mod 256, i') end.
Lemma r_read L mem base w ws m0 r m p k f o i : St L mem base (w :: ws) m0 r m -> r 0 = 0 -> r 1 = r 4 -> r 2 = 1 -> placed p (os_read W ++ k) ->
  cb + (p + hsize (os_read W)) < MOD ->
  (forall r' m' f' n w' i', rdw_res w i = (n, w', i') -> r' 0 = n -> St L mem base (w' :: ws) m0 r' m' -> wp F (MS r' m' (cb + (p + hsize (os_read W))) f' o i' mp)) ->
  wp F (MS r m (cb + p) f o i mp).
Proof.
  intros H E0 E1 E2 Hp Hpc KN. unfold os_read, reg_X, reg_Y, reg_Z, syscall_3, mov_opt in *. pose proof (st_regs _ _ _ _ _ _ _ _ _ _ _ _ _ H) as Hr. 
  pose proof (st_sp _ _ _ _ _ _ _ _ _ _ _ _ _ H) as Hsp. pose proof (MOD_pos W HW) as MP. assert (M1 : 1 < MOD) by (rewrite <- (mod1 1) by lia; apply Z.mod_pos_bound; exact MP). 
  destruct (Z.eqb_spec W 4) as [EW|EW]; cbn [Z.leb Z.compare app] in *.
  - start32 H Hp 3 EW r r1 m1 r5. rewrite E0, E1, E2. unfold sys. change (3 =? 1) with false. change (3 =? 4) with false. change (3 =? 3) with true. change (0 =? 0) with true. cbv iota. change (Z.to_nat 1) with 1%nat.
    unfold setr. cbn [rg mm pc fl outp inp maps].
    pose proof (st_sp _ _ _ _ _ _ _ _ _ _ _ _ _ H1) as Hsp1. rewrite zlen_cons in Hsp1. assert (A4 : r1 4 + W = r 4) by lia.
    assert (RG : forall v, v = 0 \/ v = 1 -> let r7 := upd (upd (upd r5 0 v) 4 (r1 4 + W)) 3 (r 3) in regs_ok W r7 /\ r7 3 = r1 3 /\ r7 4 = r1 4 + W /\ r7 0 = v).
    { intros v Hv r7. unfold r7. split; [|ups; split; [symmetry; apply Eq; discriminate|auto]]. repeat apply regs_upd; auto; lia. }
    destruct i as [|c i]; cbn [firstn skipn map wr length].
    + eapply wp_pop; [exact Hcd|exact Hp| |]; [ups; rewrite F4; exact T3|]. destruct (RG 0 (or_introl eq_refl)) as (R1 & R2 & R3 & R4).
      fin KN; [reflexivity|ups; reflexivity|]. eapply (St_drop W slim STOP cb GB bytes HW Hslim Hstop Hdis); [exact H1| | |]; ups; rewrite ?F4, ?T1; auto.
    + assert (H2 : St L mem base (w :: ws) m0 (upd r1 4 (r1 4 + W)) m1).
      { eapply (St_drop W slim STOP cb GB bytes HW Hslim Hstop Hdis); [exact H1| | |]; ups; auto. apply regs_upd; auto. }
      apply St_stk1 with (b := c mod 256) in H2; [|apply Z.mod_pos_bound; lia]. rewrite upd_same, A4 in H2.
      assert (T1' : rd (Wn W) (upd m1 (r 4) (c mod 256)) (r1 4) = r 3).
      { rewrite <- T1. apply rd_ext. intros x Hx. apply upd_other. rewrite Wn_W in Hx by assumption. lia. }
      pose proof (st_code _ _ _ _ _ _ _ _ _ _ _ _ _ H2) as Hcd2.
      eapply wp_pop; [exact Hcd2|exact Hp| |]; [ups; rewrite F4; exact T3|]. destruct (RG 1 (or_intror eq_refl)) as (R1 & R2 & R3 & R4).
      fin KN; [reflexivity|ups; reflexivity|]. eapply (St_regs W slim STOP cb GB bytes HW Hslim Hstop Hdis); [exact H2| | |]; ups; rewrite ?F4, ?T1'; auto.
  - assert (EW8 : W = 8) by (destruct HW; congruence).
    ap r_mov; [exact H|exact Hp|discriminate|discriminate|]. clear H. intros r1 H A1 B1. nx Hp.
    ap r_mov; [exact H|exact Hp|discriminate|discriminate|]. clear H. intros r2 H A2 B2. nx Hp.
    ap r_mov; [exact H|exact Hp|discriminate|discriminate|]. clear H. intros r3 H A3 B3. nx Hp.
    ap r_movi; [exact H|exact Hp|discriminate|discriminate|]. clear H. intros r5 H A4 B4. nx Hp. pose proof (st_code _ _ _ _ _ _ _ _ _ _ _ _ _ H) as Hcd.
    pose proof Hp as Hpx. destruct Hp as [Hd Hp]. eapply wp_h; [exact Hcd|exact Hd|]. cbn [meaning exec]. replace (W =? 8) with true by (rewrite EW8; reflexivity). cbv iota.
    unfold sys64, sys. cbn [rg]. rewrite A4, mod1 by lia. change (0 =? 60) with false. change (0 =? 1) with false. change (0 =? 0) with true. cbv iota. unfold setr, setfl. cbn [rg mm pc fl outp inp maps].
    rewrite B4, B3, B2, A1, E0 by discriminate. change (0 =? 0) with true. cbv iota. rewrite B4, A3, B2, B1, E2 by discriminate. change (Z.to_nat 1) with 1%nat.
    rewrite B4, B3, A2, B1, E1 by discriminate. assert (A5 : r5 4 = r 4) by (rewrite B4, B3, B2, B1 by discriminate; reflexivity).
    destruct (Hd _ Hcd) as (_ & _ & D1 & _). pose proof (ilen_nonneg W HSyscall).
    destruct i as [|c i]; cbn [firstn skipn map wr length].
    + fin KN; [reflexivity|ups; reflexivity|].
      apply (St_upd W slim STOP cb GB bytes HW Hslim Hstop Hdis); [|lia|discriminate|discriminate]. apply (St_upd W slim STOP cb GB bytes HW Hslim Hstop Hdis); [exact H| |discriminate|discriminate].
      split; [|exact Hpc]. cbn [hsize]. lia.
    + apply St_stk1 with (b := c mod 256) in H; [|apply Z.mod_pos_bound; lia]. rewrite A5 in H. fin KN; [reflexivity|ups; reflexivity|].
      apply (St_upd W slim STOP cb GB bytes HW Hslim Hstop Hdis); [|lia|discriminate|discriminate]. apply (St_upd W slim STOP cb GB bytes HW Hslim Hstop Hdis); [exact H| |discriminate|discriminate].
      split; [|exact Hpc]. cbn [hsize]. lia.
Qed.
(** What is assumed of the runtime: the two functions are somewhere in the code. *)
Definition rt_ok (g : Z) : Prop := forall lb t, look_fun g glo = Some (lb, t) ->
  (funs g = Some FPutchar -> exists p, placed p (fun_putchar W lb)) /\ (funs g = Some FGetchar -> exists l p, placed p (fun_getchar W lb l)).
Lemma pl_range p h k m : placed p (NMach.HC h :: k) -> codeok cb bytes m -> 0 <= p /\ p + ilen W h <= zlen bytes.
Proof. intros [Hd _] Hc. destruct (Hd m Hc) as (_ & _ & A & B). auto. Qed.
Lemma ret_pos : 0 < ilen W HRet.
Proof. destruct HW as [-> | ->]; reflexivity. Qed.
Lemma r_ret L mem base ra ws m0 r m p k f o i : St L mem base (ra :: ws) m0 r m -> placed p (NMach.HC HRet :: k) ->
  (forall r' f', St L mem base ws m0 r' m -> (forall q, q <> 4 -> r' q = r q) -> wp F (MS r' m ra f' o i mp)) -> wp F (MS r m (cb + p) f o i mp).
Proof.
  intros H Hp K. destruct (St_top W slim STOP cb GB bytes HW Hslim Hstop Hdis _ _ _ _ _ _ _ _ H) as (T1 & T2 & T3 & T4).
  eapply wp_ret; [apply (st_code _ _ _ _ _ _ _ _ _ _ _ _ _ H)|exact Hp|exact T3|]. rewrite T1. apply K; [|intros; ups; reflexivity || (apply upd_other; congruence)].
  eapply (St_drop W slim STOP cb GB bytes HW Hslim Hstop Hdis); [exact H| | |]; ups; auto. apply regs_upd; [|exact T3]. apply (st_regs _ _ _ _ _ _ _ _ _ _ _ _ _ H).
Qed.
Lemma c_putchar k g : funs g = Some FPutchar -> rt_ok g -> CXg (S k) g.
Proof.
  intros Eg Hf L vs s Q lb t a base ra ws' ws m0 r mm f HC Lf La HA H KN. destruct (Hf _ _ Lf) as [Hf' _]. destruct (Hf' Eg) as [p Hp]. clear Hf Hf'.
  rewrite ccall_eq in HC. unfold ccall_body in HC. rewrite Eg in HC. unfold ptys in HA. rewrite Eg in HA. unfold rty, fk in KN. rewrite Eg in KN.
  destruct vs as [|v [|]]; [contradiction| |contradiction]. destruct ws' as [|w [|]]; [contradiction| |destruct HA; contradiction]. destruct HA as [HA _]. cbn [csize] in HA.
  unfold fun_putchar, rt_putchar, reg_X, reg_SP, reg_Y, reg_Z in Hp. cbn [app] in *. destruct Hp as [L0 Hp]. rewrite La in L0. apply Some_inj in L0. subst p.
  pose proof (st_stk _ _ _ _ _ _ _ _ _ _ _ _ _ H) as Hs. cbn [stk] in Hs. destruct Hs as (_ & Hw & _). pose proof (st_sp _ _ _ _ _ _ _ _ _ _ _ _ _ H) as Hsp. rewrite !zlen_cons in Hsp.
  pose proof (st_lo _ _ _ _ _ _ _ _ _ _ _ _ _ H) as Hlo. pose proof (st_hi _ _ _ _ _ _ _ _ _ _ _ _ _ H) as Hhi. pose proof (zlen_nonneg ws) as Zw. pose proof (MOD_pos W HW) as MP.
  assert (WP : 0 < W) by (destruct HW; lia). assert (Rw : 0 <= w < MOD) by (rewrite <- Hw; apply rd_word_range; auto; apply (st_bytes _ _ _ _ _ _ _ _ _ _ _ _ _ H)).
  ap r_load; [exact H|exact Hp|discriminate|discriminate| |reflexivity|nia|].
  { unfold okw. destruct HW as [E|E]; rewrite E; reflexivity. }
  clear H. intros r1 H E1 _. nx Hp. unfold ldv in E1. fold (Wn W) in E1. rewrite Hw, Z.mod_small in E1 by exact Rw.
  tpush H Hp r2 m2 Eq2. rewrite E1 in H. tmovi H Hp r3 E3 Eq3. tmov H Hp r4 E4 Eq4. tmovi H Hp r5 E5 Eq5.
  rewrite mod1 in E3, E5 by lia.
  pose proof Hp as Hp0. rewrite <- app_assoc in Hp0. plc Hp0 Hpw. rewrite <- app_assoc in Hp. cbn [app] in Hp0.
  pose proof (st_code _ _ _ _ _ _ _ _ _ _ _ _ _ H) as Hcd. pose proof (pl_range _ _ _ _ Hp0 Hcd) as RR. pose proof Hp0 as Hp1. nx Hp1. pose proof (pl_range _ _ _ _ Hp1 Hcd) as RR1. pose proof ret_pos. pose proof (ilen_nonneg W (HPop 0)).
  eapply r_write; [exact H| | |exact E5|exact Hp| |].
  - rewrite Eq5, Eq4, E3 by discriminate. reflexivity.
  - rewrite Eq5, E4 by discriminate. rewrite (Eq5 4) by discriminate. rewrite (Eq4 4) by discriminate. reflexivity.
  - lia.
  - clear H Hcd. intros r6 m6 f6 H. tpop H Hp0 r7 E7 Eq7. eapply r_ret; [exact H|exact Hp0|]. clear H. intros r8 f8 H Eq8.
    unfold rep, eqm in HA. change (2 ^ (8 * 1)) with 256 in HA. rewrite HA.
    change (cout s ++ [v mod 256]) with (cout (CS (cmem s) (cout s ++ [v mod 256]) (cin s))). change (cin s) with (cin (CS (cmem s) (cout s ++ [v mod 256]) (cin s))) at 2.
    eapply KN with (ws'' := [w]); [exact HC|reflexivity| | |exact H].
    + pose proof (Z.mod_pos_bound v 256). cbn [inr_ tint]. change (2 ^ (8 * 4 - 1)) with 2147483648. lia.
    + rewrite Eq8, E7 by discriminate. unfold rep, eqm. change (2 ^ (8 * 1)) with 256. rewrite HA, Z.mod_mod by lia. reflexivity.
Qed.
Lemma c_getchar k g : funs g = Some FGetchar -> rt_ok g -> CXg (S k) g.
Proof.
  intros Eg Hf L vs s Q lb t a base ra ws' ws m0 r mm f HC Lf La HA H KN. destruct (Hf _ _ Lf) as [_ Hf']. destruct (Hf' Eg) as (l & p & Hp). clear Hf Hf'.
  rewrite ccall_eq in HC. unfold ccall_body in HC. rewrite Eg in HC. unfold ptys in HA. rewrite Eg in HA. unfold rty, fk in KN. rewrite Eg in KN.
  destruct vs; [|contradiction]. destruct ws'; [|contradiction].
  unfold fun_getchar, rt_fgetc, reg_X, reg_SP, reg_Y, reg_Z, h_jump_cond_reg_reg in Hp. cbn [app] in *. destruct Hp as [L0 Hp]. rewrite La in L0. apply Some_inj in L0. subst p.
  pose proof (MOD_pos W HW) as MP.
  tmovi H Hp r1 E1 Eq1. rewrite mod1 in E1 by lia. tpush H Hp r2 m2 Eq2. rewrite E1 in H. tmov H Hp r3 E3 Eq3. tmov H Hp r4 E4 Eq4. tmovi H Hp r5 E5 Eq5. rewrite mod1 in E5 by lia.
  pose proof Hp as Hp0. rewrite <- app_assoc in Hp0. plc Hp0 Hpw. rewrite <- app_assoc in Hp. cbn [app] in Hp0.
  pose proof (st_code _ _ _ _ _ _ _ _ _ _ _ _ _ H) as Hcd. pose proof (pl_range _ _ _ _ Hp0 Hcd) as RR. pose proof Hp0 as Hp1. nx Hp1. pose proof (pl_range _ _ _ _ Hp1 Hcd) as RR1.
  assert (MV : 0 < ilen W (HMovImm 1 0)) by (destruct HW as [E|E]; rewrite E; reflexivity). assert (0 <= ilen W (HPop 2)) by apply ilen_nonneg.
  eapply r_read; [exact H| | |exact E5|exact Hp| |].
  - rewrite Eq5, Eq4, E3, Eq2, E1 by discriminate. reflexivity.
  - rewrite Eq5, E4 by discriminate. rewrite (Eq5 4) by discriminate. rewrite (Eq4 4) by discriminate. reflexivity.
  - lia.
  - clear H Hcd. intros r6 m6 f6 n w' i' ER E6 H. tpop H Hp0 r7 E7 Eq7. tmovi H Hp0 r8 E8 Eq8. 
    pose proof Hp0 as Hp2. nx Hp2. nx Hp2. nx Hp2. destruct Hp2 as [Ll Hp2].
    assert (E80 : r8 0 = n) by (rewrite Eq8, Eq7 by discriminate; exact E6). rewrite mod1 in E8 by lia.
    eapply r_cmpjump with (b := negb (n =? 0)); [exact HW|exact Hslim|exact Hstop|exact Hdis|exact H|exact Hp0|exact Ll| |].
    { unfold ccsem. change (NE =? EQ) with false. change (NE =? NE) with true. cbv iota. rewrite E80, E8. reflexivity. }
    intros f7. nx Hp0. nx Hp0. unfold rdw_res in ER. destruct (cin s) as [|c i0] eqn:Ei.
    + apply pair_equal_spec in ER as [ER <-]. apply pair_equal_spec in ER as [<- <-]. cbn [negb Z.eqb].
      tmovi H Hp0 r9 E9 Eq9. nx Hp0. tmov H Hp0 r10 E10 Eq10. eapply r_ret; [exact H|exact Hp0|]. clear H. intros r11 f11 H Eq11. rewrite <- Ei.
      eapply KN with (ws'' := []); [exact HC|reflexivity| | |exact H].
      * cbn [inr_ tint]. change (2 ^ (8 * 4 - 1)) with 2147483648. lia.
      * rewrite Eq11, E10, E9 by discriminate. unfold rep, eqm. rewrite Z.mod_mod by (unfold X86Sem.MOD in MP; lia). reflexivity.
    + apply pair_equal_spec in ER as [ER <-]. apply pair_equal_spec in ER as [<- <-]. cbn [negb Z.eqb].
      tmov H Hp2 r10 E10 Eq10. eapply r_ret; [exact H|exact Hp2|]. clear H. intros r11 f11 H Eq11.
      change (cout s) with (cout (CS (cmem s) (cout s) i0)). change i0 with (cin (CS (cmem s) (cout s) i0)) at 2.
      eapply KN with (ws'' := []); [exact HC|reflexivity| | |exact H].
      * pose proof (Z.mod_pos_bound c 256). cbn [inr_ tint]. change (2 ^ (8 * 4 - 1)) with 2147483648. lia.
      * rewrite Eq11, E10, Eq8, E7 by discriminate. change (0 - 0 mod 256 + c mod 256) with (c mod 256). reflexivity.
Qed.
End X.
