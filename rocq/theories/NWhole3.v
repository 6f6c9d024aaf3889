(** * Whole programs run as their source says *)
From Coq Require Import ZArith List Lia Bool.
From Verif Require Import Base Asm AsmProof X86 X86Proof X86Sem NMach NPtr CLang CProg NGen NSupp NBin NRun NBop NEqs NStat NJudge NExpr NExpr2 NExpr3 NExpr4 NStat2 NStmt NSwitch NCall NLink NRt NMain NProg NMono NLab NSetup NWhole NWhole2.
Import ListNotations.
Open Scope Z_scope.

Definition disj (a n b m : Z) : Prop := a + n <= b \/ b + m <= a.
(** How the system has laid out the process: the code at [cb], the stack from [slim] up to the argument count at [sp0],
    the argument blocks [La] above it, the mappings of the globals and of the heap at [GB] and [HB]. *)
Record layout (W cb len slim sp0 GB alloc HB : Z) (La : list (Z * Z)) : Prop := {
  ly_slim : 0 < slim <= sp0;
  ly_sp : sp0 + 2 * W <= MOD W;
  ly_code : 0 <= cb /\ cb + len <= MOD W;
  ly_cs : sp0 <= cb \/ cb + len <= slim;
  ly_GB : 0 < GB /\ GB + alloc < MOD W;
  ly_Gs : GB + alloc <= slim \/ sp0 + W <= GB;
  ly_Gc : GB + alloc <= cb \/ cb + len <= GB;
  ly_HB : 0 <= HB /\ HB + RT_HEAP_SIZE <= MOD W;
  ly_Hs : HB + RT_HEAP_SIZE <= slim \/ sp0 + W <= HB;
  ly_Hc : HB + RT_HEAP_SIZE <= cb \/ cb + len <= HB;
  ly_HG : HB + RT_HEAP_SIZE <= GB \/ GB + alloc <= HB;
  ly_La : forall x, inlive La x -> sp0 + W <= x < MOD W /\ ~ (cb <= x < cb + len) /\ ~ (GB <= x < GB + alloc) /\ ~ (HB <= x < HB + RT_HEAP_SIZE) }.

Section Y.
Variables (W cb : Z) (bytes : list Z) (lab : Z -> option Z) (ds : list gdecl) (code : list hop) (sF : gst).
Variables (slim sp0 GB HB : Z) (La : list (Z * Z)).
Hypothesis HW : W = 4 \/ W = 8.
Hypothesis Hcg : codegen_prog W ds = Some (code, sF).
Hypothesis HS : sprog W ds = true.
Hypothesis HP : placed W cb bytes lab 0 code.
Hypothesis HL : layout W cb (zlen bytes) slim sp0 GB (galloc sF) HB La.
Hypothesis HA : galloc sF < 2 ^ 31.
Set Default Proof Using "HW Hcg HS HP".
Notation funs := (cfuns ds).
Notation G := (gglo sF).
Notation placed := (placed W cb bytes lab).

Lemma sp_parts : NoDup (vnames ds) /\ NoDup (dnames ds) /\ (forall x, In x (vnames ds) -> builtin x = false /\ ~ In x (fnames ds)) /\ forallb (sdecl W ds) ds = true /\ sleft ds [] ds = true.
Proof.
  pose proof HS as H. unfold sprog in H. apply andb_true_iff in H as [H H5]. apply andb_true_iff in H as [H H4]. apply andb_true_iff in H as [H H3]. apply andb_true_iff in H as [H1 H2].
  split; [now apply nodupb_ok|]. split; [now apply nodupb_ok|]. split; [|auto]. intros x Hx. rewrite forallb_forall in H3. specialize (H3 x Hx). apply andb_true_iff in H3 as [A B].
  apply negb_true_iff in A, B. split; [exact A|]. intros Hf. apply memZ_in in Hf. congruence.
Qed.
Definition s00 : gst := snd (codegen_begin W).
Lemma prog_parts : exists c p, codegen_decls W ds s00 = Some (c, sF) /\ code = HC (HJump setup_lbl) :: c ++ codegen_end W sF /\ p = ilen W (HJump setup_lbl) /\
  placed p c /\ placed (p + hsize W c) (codegen_end W sF).
Proof.
  unfold codegen_prog, codegen_begin in Hcg. fold s00 in Hcg. change (GS begin_glo (2 * W) init_start_lbl [] false 18) with s00 in Hcg.
  destruct (codegen_decls W ds s00) as [[c s]|] eqn:E; [|discriminate]. apply Some_inj, pair_equal_spec in Hcg as [E1 ->]. exists c. eexists. split; [reflexivity|]. split; [now rewrite <- E1|]. split; [reflexivity|].
  rewrite <- E1 in HP. cbn [app] in HP. destruct HP as [_ Hp]. rewrite Z.add_0_l in Hp. apply (placed_app _ _ _ _ HW) in Hp. exact Hp.
Qed.
Lemma tabF : tab_ok ds G.
Proof.
  destruct prog_parts as (c & p & H & _). destruct sp_parts as (_ & N & _ & S & _). eapply decls_tab; [|exact S|exact N|exact H|apply tab_begin]. auto.
Qed.
Lemma ND : forall f r, look_fun f G = Some r -> look_glo f G = None.
Proof.
  intros f r H. destruct (look_glo f G) as [z|] eqn:E; [|reflexivity]. exfalso. destruct tabF as (T1 & T2 & _). destruct sp_parts as (_ & _ & N & _).
  destruct (N f (T2 _ _ E)) as [A B]. destruct (T1 _ _ H); [congruence|auto].
Qed.
Lemma fun_in f ps rt b : fun_def ds f = Some (ps, rt, b) -> okp W ps = true /\ si W funs (rev ps ++ gtys ds []) rt false b = true /\ (f = id_main \/ builtin f = false) /\
  exists lb t, look_fun f G = Some (lb, t) /\ exists s0 u code s' q, codegen_fun W G lb ps b s0 = Some (u, code, s') /\ placed q code.
Proof.
  intros H. apply fun_def_some in H. destruct sp_parts as (_ & N & _ & S & _). rewrite forallb_forall in S. pose proof (S _ H) as Sd. cbn [sdecl] in Sd.
  apply andb_true_iff in Sd as [Sd S3]. apply andb_true_iff in Sd as [S1 S2]. split; [exact S2|]. split; [exact S3|]. split.
  { apply orb_true_iff in S1 as [S1|S1]; [left; now apply Z.eqb_eq in S1|right; now apply negb_true_iff in S1]. }
  destruct prog_parts as (c & p & Hd & _ & _ & Hp & _). eapply (decls_fun W HW ds cb bytes lab G); [exact Hd|exact Hp|apply gle_refl|exact ND|exact H].
Qed.
Lemma cfuns_user g ps rt b : funs g = Some (FUser ps rt b) -> g <> id_main /\ fun_def ds g = Some (ps, rt, b).
Proof using.
  cbn [dfun cfuns]. unfold cfun. destruct (g =? id_putchar); [discriminate|]. destruct (g =? id_getchar); [discriminate|]. destruct (Z.eqb_spec g id_main); [discriminate|].
  destruct (fun_def ds g) as [[[ps' rt'] b']|]; [|discriminate]. intros H. injection H as -> -> ->. auto.
Qed.
Lemma HSS : forall l s c s2, codegen_decls W l s = Some (c, s2) -> forall id ms, In (DStruct id ms) l -> look_str id (gglo s2) = Some ms.
Proof using HW.
  clear - HW. induction l as [|d l IH]; intros s c s2 H id ms Hi; [destruct Hi|].
  apply decls_inv in H as (c1 & s1 & c2 & H1 & H2 & _). destruct Hi as [->|Hi]; [|eapply IH; eassumption].
  apply (decls_gle W) in H2. apply (proj2 (proj2 H2)). apply decl_glo in H1. destruct H1 as [-> _]. cbn [look_str]. now rewrite Z.eqb_refl.
Qed.
Lemma str_def_in : forall l id ms, str_def l id = Some ms -> In (DStruct id ms) l.
Proof using. clear. induction l as [|d l IH]; intros id ms H; [discriminate|]. destruct d; cbn [str_def] in H; try (right; now apply IH). destruct (Z.eqb_spec id id0) as [->|]; [left; congruence|right; now apply IH]. Qed.
Lemma HFS : forall id m r, dmem funs id m = Some r -> look_mem G id m = Some r.
Proof.
  intros id m r H. cbn [dmem cfuns] in H. unfold cmem_ in H. destruct (str_def ds id) as [ms|] eqn:E; [|discriminate]. apply str_def_in in E.
  destruct prog_parts as (c & p & Hd & _). unfold look_mem. rewrite (HSS _ _ _ _ Hd _ _ E). exact H.
Qed.
Lemma HFF1 : forall f t, ftab funs f = Some t -> fun_type G f = Some t.
Proof.
  intros f t H. unfold ftab in H. destruct tabF as (_ & _ & T3 & T4 & T5 & T6). unfold fun_type. destruct (funs f) as [[ps rt b| |]|] eqn:E; [| | |discriminate].
  - apply Some_inj in H as <-. apply cfuns_user in E as [N E]. destruct (fun_in _ _ _ _ E) as (_ & _ & B & lb & t & Lf & _). rewrite Lf. f_equal. destruct B as [->|B]; [congruence|]. eapply T3; eassumption.
  - apply Some_inj in H as <-. cbn [dfun cfuns] in E. unfold cfun in E. destruct (Z.eqb_spec f id_putchar) as [Ex|]; [rewrite Ex, T5; reflexivity|]. destruct (f =? id_getchar); [discriminate|]. destruct (f =? id_main); [discriminate|].
    destruct (fun_def ds f) as [[[? ?] ?]|]; discriminate.
  - apply Some_inj in H as <-. cbn [dfun cfuns] in E. unfold cfun in E. destruct (f =? id_putchar); [discriminate|]. destruct (Z.eqb_spec f id_getchar) as [Ex|]; [rewrite Ex, T6; reflexivity|]. destruct (f =? id_main); [discriminate|].
    destruct (fun_def ds f) as [[[? ?] ?]|]; discriminate.
Qed.
Lemma HFF : decl_ok funs G.
Proof. split; [exact HFF1|exact HFS]. Qed.
Lemma end_parts p : placed p (codegen_end W sF) ->
  placed p (setup_code W (galloc sF)) /\ (exists q, placed q (main_code W (ginit sF) (gret sF))) /\ (exists q, placed q (fun_putchar W putchar_lbl)) /\ (exists q, placed q (fun_getchar W getchar_lbl (glbl sF))).
Proof.
  unfold codegen_end. intros H. apply (placed_app _ _ _ _ HW) in H as [H1 H]. apply (placed_app _ _ _ _ HW) in H as [H2 H]. apply (placed_app _ _ _ _ HW) in H as [_ H].
  apply (placed_app _ _ _ _ HW) in H as [H3 H]. apply (placed_app _ _ _ _ HW) in H as [H4 _].
  split; [exact H1|]. split; [eexists; exact H2|]. split; [eexists; exact H3|eexists; exact H4].
Qed.
Lemma HRR g : rt_ok W cb bytes lab funs G g.
Proof.
  intros lb t Lf. destruct tabF as (_ & _ & _ & _ & T5 & T6). destruct prog_parts as (c & p & _ & _ & _ & _ & Hp). apply end_parts in Hp as (_ & _ & Q1 & Q2). split; intros E; cbn [dfun cfuns] in E; unfold cfun in E.
  - destruct (Z.eqb_spec g id_putchar) as [Ex|]; [|destruct (g =? id_getchar); [discriminate|]; destruct (g =? id_main); [discriminate|]; destruct (fun_def ds g) as [[[? ?] ?]|]; discriminate].
    rewrite Ex, T5 in Lf. apply Some_inj, pair_equal_spec in Lf as [<- _]. exact Q1.
  - destruct (g =? id_putchar); [discriminate|]. destruct (Z.eqb_spec g id_getchar) as [Ex|]; [|destruct (g =? id_main); [discriminate|]; destruct (fun_def ds g) as [[[? ?] ?]|]; discriminate].
    rewrite Ex, T6 in Lf. apply Some_inj, pair_equal_spec in Lf as [<- _]. destruct Q2 as [q Q2]. exists (glbl sF), q. exact Q2.
Qed.
Lemma HUU gvars : tys gvars = gtys ds [] -> forall g, fun_ok W cb bytes lab funs gvars G g.
Proof.
  intros Ht g ps rt b lb t E Lf. apply cfuns_user in E as [_ E]. destruct (fun_in _ _ _ _ E) as (A & B & _ & lb' & t' & Lf' & R). rewrite Ht. rewrite Lf in Lf'. apply Some_inj, pair_equal_spec in Lf' as [<- _]. auto.
Qed.
Lemma gret_main ps rt b : fun_def ds id_main = Some (ps, rt, b) -> gret sF = match rt with TVoid => false | _ => true end.
Proof.
  intros Hm. destruct prog_parts as (c & p & H & _). destruct sp_parts as (_ & N & _). clear - Hm H N.
  assert (X : forall l s c s2, codegen_decls W l s = Some (c, s2) -> NoDup (dnames l) -> gret s2 = match fun_def l id_main with Some (_, TVoid, _) | None => gret s | Some _ => true end).
  { clear. induction l as [|d l IH]; intros s c s2 H N; [cbn in H; apply Some_inj, pair_equal_spec in H as [_ <-]; reflexivity|].
    apply decls_inv in H as (c1 & s1 & c2 & H1 & H2 & _). destruct d as [x t [e|]|f rt|f ps rt b|id ms]; cbn [NProg.codegen_glo_decl fun_def] in *.
    - rewrite (IH _ _ _ H2 N). assert (E : gret (fst (glo_var W x t s)) = gret s) by (unfold glo_var; destruct (look_glo x (gglo s)) as [[? ?]|]; reflexivity).
      destruct (glo_var W x t s) as [s1' off]. cbn [fst] in E. destruct (glo_init W s1' t off e _) as [[[u c'] [z l']]|]; [|discriminate]. apply Some_inj, pair_equal_spec in H1 as [_ <-]. cbn [gret]. now rewrite E.
    - rewrite (IH _ _ _ H2 N). apply Some_inj, pair_equal_spec in H1 as [_ <-]. unfold glo_var; destruct (look_glo x (gglo s)) as [[? ?]|]; reflexivity.
    - rewrite (IH _ _ _ H2 N). apply Some_inj, pair_equal_spec in H1 as [_ <-]. unfold glo_fun; destruct (look_fun f (gglo s)) as [[? ?]|]; reflexivity.
    - destruct (is_agg rt); [discriminate|]. cbn [dnames flat_map app] in N. inversion N as [|? ? N1 N2]; subst.
      destruct (glo_fun f rt s) as [s1' lb]. destruct (codegen_fun W (gglo s1') lb ps b _) as [[[u c'] [z l']]|]; [|discriminate]. destruct (add_params W ps (-1) []); [|discriminate].
      apply Some_inj, pair_equal_spec in H1 as [_ <-]. rewrite (IH _ _ _ H2 N2). cbn [gret]. rewrite Z.eqb_sym. destruct (Z.eqb_spec id_main f) as [E|E]; [|reflexivity].
      subst f. destruct (fun_def l id_main) as [[[ps' rt'] b']|] eqn:Ef.
      + exfalso. apply N1. apply fun_def_some in Ef. apply in_flat_map. exists (DFun id_main ps' rt' b'). split; [exact Ef|now left].
      + destruct rt; reflexivity.
    - destruct (look_str id (gglo s)); [discriminate|]. apply Some_inj, pair_equal_spec in H1 as [_ <-]. exact (IH _ _ _ H2 N). }
  rewrite (X _ _ _ _ H N), Hm. destruct rt; reflexivity.
Qed.

Definition F (Q : Z -> list Z -> Prop) (s : mst) : Prop := exists c s', step W slim s = Exit c s' /\ Q c (outp s').
Lemma lab_jump l p k m : placed p (HC (HJump l) :: k) -> codeok cb bytes m -> exists a, lab l = Some a.
Proof using. intros [Hd _] Hc. destruct (Hd m Hc) as (_ & H & _). specialize (H l eq_refl). destruct (lab l); [eauto|congruence]. Qed.
Lemma lab_call l p k m : placed p (HC (HCall l) :: k) -> codeok cb bytes m -> exists a, lab l = Some a.
Proof using. intros [Hd _] Hc. destruct (Hd m Hc) as (_ & H & _). specialize (H l eq_refl). destruct (lab l); [eauto|congruence]. Qed.
Lemma ipos_mov a d x : 0 < ilen W (HAlu a d x). Proof using HW. clear - HW. destruct HW as [-> | ->]; destruct a; reflexivity. Qed.
Lemma plr p h k m : placed p (NMach.HC h :: k) -> codeok cb bytes m -> 0 <= p /\ p + ilen W h <= zlen bytes.
Proof using. intros [Hd _] Hc. destruct (Hd m Hc) as (_ & _ & A & B). auto. Qed.
Lemma byteW a b : a mod 2 ^ (8 * W) = b mod 2 ^ (8 * W) -> a mod 256 = b mod 256.
Proof using HW.
  clear - HW. intros H. assert (X : forall z, (z mod 2 ^ (8 * W)) mod 256 = z mod 256).
  { intros z. rewrite <- Znumtheory.Zmod_div_mod; [reflexivity|lia|destruct HW as [-> | ->]; reflexivity|]. exists (2 ^ (8 * W) / 256). destruct HW as [-> | ->]; reflexivity. }
  rewrite <- (X a), <- (X b), H. reflexivity.
Qed.
Lemma arep_refl : forall (ps : list (Z * ty)) vs, length vs = length ps -> arep W (map snd ps) vs vs.
Proof using. induction ps as [|[x t] ps IH]; intros [|v vs] H; cbn in *; try discriminate; auto. split; [reflexivity|]. apply IH. lia. Qed.

Lemma prog_run n argc m0 inp r0 f0 Q : regs_ok W r0 -> bytes_ok m0 -> codeok cb bytes m0 -> r0 4 = sp0 -> rd (Wn W) m0 sp0 = argc ->
  cprog W ds n La m0 argc (sp0 + W) inp (fun c st => Q c (cout st)) ->
  wp W slim (F Q) (MS r0 m0 (cb + 0) f0 [] inp [GB; HB]).
Proof using HW Hcg HS HP HL HA.
  intros Hr Hb Hc E4 Ea HC. pose proof (MOD_pos W HW) as MP. assert (WP : 0 < W) by (destruct HW; lia).
  pose proof HL as HL0. destruct HL0 as [L1 L2 L3 L4 L5 L6 L7 L8 L9 L10 L11 L12]. assert (Hslim : 0 < slim) by lia. assert (Hstop : sp0 < MOD W) by lia.
  destruct prog_parts as (c & p & Hd & Ecode & Ep & Hp & He). apply end_parts in He as (Hsu & (q & Hm) & _ & _).
  pose proof HP as HP0. rewrite Ecode in HP0.
  assert (Hsu1 : lab setup_lbl = Some (p + hsize W c)) by (destruct Hsu as [Hsu _]; exact Hsu).
  eapply wp_jump; [exact Hc|exact HP0|exact Hsu1|]. set (p1 := p + hsize W c) in *. unfold setup_code in Hsu. cbn [app] in Hsu. destruct Hsu as [_ Hsu].
  (* sizes *)
  destruct sp_parts as (NV & NDn & Nvf & Sd & Sl).
  assert (EG : galloc s00 = 2 * W) by reflexivity.
  assert (HC' := HC). unfold cprog in HC'.
  match type of HC' with globals _ _ _ _ ?K => destruct (globals_ok W HW ds GB (proj1 L5) ds Sd s00 c sF [] La K Hd NV) as (GA & V & L & HK & HVG & Ht & Li1 & Li2 & Hlk & _) end; try exact HC'.
  { intros x _. reflexivity. } { rewrite EG; lia. } { lia. } { intros x Hx. destruct (L12 x Hx) as (A & _ & B & _). rewrite EG. lia. } { intros x a t Hx. discriminate Hx. }
  clear HC'. rewrite EG in *.
  assert (Hsu' := Hsu). apply (placed_app _ _ _ _ HW) in Hsu' as [_ Hsu']. pose proof (plr _ _ _ _ Hsu' Hc) as PR1. pose proof (ipos_mov Amov reg_glo reg_X).
  eapply (r_mmap W slim cb bytes lab (F Q) HW Hslim L3); [exact Hsu|exact Hc|exact Hr|exact Hb|lia|lia|lia|lia|lia|lia|lia|].
  intros r1 m1 f1 A1 A3 A4 Ar1 Ab1 Ac1 Az1 Au1. clear Hsu. rewrite E4 in Au1.
  eapply wp_mov; [exact Ac1|exact Hsu'|]. nx Hsu'. unfold reg_glo, reg_X in *. rewrite A1.
  assert (Hsu := Hsu'). apply (placed_app _ _ _ _ HW) in Hsu as [_ Hsu]. pose proof (plr _ _ _ _ Hsu Hc) as PR2.
  assert (0 < ilen W (HStore W 3 0 0)) by (destruct HW as [-> | ->]; reflexivity).
  assert (R2 : regs_ok W (upd r1 3 GB)) by (apply regs_upd; [exact Ar1|lia]). unfold RT_HEAP_SIZE in L8, L9, L10, L11, L12.
  eapply (r_mmap W slim cb bytes lab (F Q) HW Hslim L3); [exact Hsu'|exact Ac1|exact R2|exact Ab1|unfold RT_HEAP_SIZE; lia|..]; try (rewrite upd_other by discriminate); rewrite ?A4, ?E4; unfold RT_HEAP_SIZE in *; try lia.
  intros r2 m2 f2 B1 B3 B4 Br2 Bb2 Bc2 Bz2 Bu2. clear Hsu'. rewrite upd_same in B3. rewrite upd_other, A4, E4 in B4 by discriminate. rewrite upd_other, A4, E4 in Bu2 by discriminate.
  match type of Hsu with NMach.placed _ _ _ _ ?pp _ => set (p3 := pp) in * end.
  eapply wp_store; [exact Bc2|exact Hsu|rewrite B3; lia|]. nx Hsu. rewrite B3, B1. set (m3 := wrb _ m2 _ _).
  assert (Bc3 : codeok cb bytes m3) by (apply codeok_wrb; [exact Bc2|destruct HW as [-> | ->]; cbn; lia]).
  assert (Bb3 : bytes_ok m3) by (apply wrb_bytes, Bb2).
  eapply wp_store; [exact Bc3|exact Hsu|rewrite B3; lia|]. nx Hsu. rewrite B3, B1. set (m4 := wrb _ m3 _ _).
  assert (Bc4 : codeok cb bytes m4) by (apply codeok_wrb; [exact Bc3|destruct HW as [-> | ->]; cbn; lia]).
  assert (Bb4 : bytes_ok m4) by (apply wrb_bytes, Bb3).
  assert (U4 : forall x, ~ (GB <= x < GB + 2 * W) -> m4 x = m2 x).
  { intros x Hx. unfold m4, m3. rewrite !wrb_out by (destruct HW as [-> | ->]; cbn; lia). reflexivity. }
  destruct (lab_jump _ _ _ _ Hsu Bc4) as [a0 La0].
  eapply wp_jump; [exact Bc4|exact Hsu|exact La0|]. clear Hsu.
  (* the initial state of the program proper *)
  assert (HSt : St W slim sp0 cb GB bytes L m4 sp0 [] m4 r2 m4).
  { constructor; auto.
    - change (zlen (@nil Z)) with 0. lia.
    - lia.
    - lia.
    - intros x Hx. destruct (Li2 x Hx) as [Hx'|Hx']; [destruct (L12 x Hx'); lia|]. lia.
    - exact I.
    - intros ? _ _; reflexivity. }
  assert (Eold : forall x, sp0 <= x -> ~ (GB <= x < GB + galloc sF) -> ~ (HB <= x < HB + 104857600) -> m4 x = m0 x).
  { intros x X1 X2 X3. rewrite U4 by lia. rewrite Bu2 by lia. apply Au1; lia. }
  specialize (HK m4 Bb4). assert (X1 : forall x, inlive La x -> m4 x = m0 x). { intros x Hx. destruct (L12 x Hx) as (X1 & X2 & X3 & X4). apply Eold; lia. }
  specialize (HK X1). assert (X2 : forall x, inlive L x -> ~ inlive La x -> m4 x = 0).
  { intros x Hx Hn. destruct (Li2 x Hx) as [Hx'|Hx']; [contradiction|]. rewrite U4 by lia. rewrite Bu2 by lia. apply Az1. lia. }
  specialize (HK X2).
  assert (HVR : NJudge.VR W GB G V [] 0).
  { intros x a t Hx. destruct (HVG x a t Hx) as (off & H1 & H2 & H3). split; [|exact H3]. right; right. split; [reflexivity|]. exists off. auto. }
  assert (Ht' : tys V = gtys ds []) by exact Ht.
  assert (Hvn : forall x a t, lookupZ V x = Some (a, t) -> In x (vnames ds)). { intros x a t Hx. destruct (HVG x a t Hx) as (off & H1 & _). apply (proj1 (proj2 tabF)) in H1. exact H1. }
  match type of HK with inits _ _ _ _ _ _ _ ?K => pose proof (init_run W slim sp0 cb GB bytes lab funs V G (F Q) [] HW Hslim Hstop L4 L3 HFF (HUU V Ht') HRR HVR ND ds eq_refl Ht' Hvn n ds Sd [] s00 c sF p a0 L (CS m4 [] inp) K sp0 m4 r2 m4 f2 Hd Hp (gle_refl _) La0) as IR end.
  eapply IR; [intros x _; reflexivity|exact Sl|exact Hlk|exact HK|exact HSt|]. clear IR.
  intros st r3 m5 f3 a1 HM La1 HS1. cbn beta in HM.
  destruct (fun_def ds id_main) as [[[ps rt] body]|] eqn:Em; [|contradiction]. destruct HM as [Hps HM].
  destruct (fun_in _ _ _ _ Em) as (Ok & Si & _ & lb & t & Lf & Hcf). assert (lb = main_lbl) as -> by (destruct tabF as (_ & _ & _ & T & _); congruence).
  unfold main_code, setup_proc_args, reg_X, reg_Y in Hm. cbn [app] in Hm. destruct Hm as [Hq Hm]. rewrite La1 in Hq. apply Some_inj in Hq. subst a1.
  change 4 with reg_SP in Hm at 1. unfold reg_SP in Hm.
  eapply (r_mov W slim sp0 cb GB bytes lab HW Hslim Hstop L4); [exact HS1|exact Hm|discriminate|discriminate|]. intros r4 HS2 C0 C1. nx Hm.
  pose proof (st_sp _ _ _ _ _ _ _ _ _ _ _ _ _ HS1) as E4'. change (zlen (@nil Z)) with 0 in E4'.
  eapply wp_addimm; [apply HS2|exact Hm|discriminate|]. nx Hm. rewrite C0. replace (r3 4 + (0 + W)) with (sp0 + W) by lia. rewrite Z.mod_small by lia.
  assert (HS3 : St W slim sp0 cb GB bytes L (cmem st) sp0 [] m4 (upd r4 0 (sp0 + W)) m5) by (apply (St_upd W slim sp0 cb GB bytes HW Hslim Hstop L4); [exact HS2|lia|discriminate|discriminate]).
  eapply (r_push W slim sp0 cb GB bytes lab HW Hslim Hstop L4); [exact HS3|exact Hm|]. intros r5 m6 HS4 D1. nx Hm. rewrite upd_same in HS4.
  eapply (r_load W slim sp0 cb GB bytes lab HW Hslim Hstop L4); [exact HS4|exact Hm|discriminate|discriminate| |reflexivity| |].
  { destruct HW as [-> | ->]; reflexivity. } { rewrite D1, upd_same by discriminate. lia. }
  intros r6 HS5 G0 G1. nx Hm.
  assert (Earg : r6 1 = argc).
  { rewrite G0, D1, upd_same by discriminate. replace (sp0 + W + - W) with sp0 by lia. unfold ldv. fold (Wn W). rewrite <- Ea.
    assert (Er : rd (Wn W) m6 sp0 = rd (Wn W) m0 sp0).
    { apply rd_ext. intros x Hx. rewrite Wn_W in Hx by exact HW. rewrite (st_fr _ _ _ _ _ _ _ _ _ _ _ _ _ HS5); [apply Eold; lia|right; lia|].
      intros Hl. destruct (Li2 x Hl) as [Hl'|Hl']; [destruct (L12 x Hl')|]; lia. }
    rewrite Er. apply Z.mod_small. apply rd_word_range; auto. }
  eapply (r_push W slim sp0 cb GB bytes lab HW Hslim Hstop L4); [exact HS5|exact Hm|]. intros r7 m7 HS6 I1. nx Hm. rewrite Earg in HS6.
  destruct (lab_call _ _ _ _ Hm (st_code _ _ _ _ _ _ _ _ _ _ _ _ _ HS6)) as [am Lam].
  assert (Hcall := Hm). nx Hm.
  match type of Hm with NMach.placed _ _ _ _ ?pp _ => set (p4 := pp) in * end.
  assert (PR4 : 0 <= p4 < zlen bytes).
  { assert (X : exists h k', (if gret sF then [] else [NMach.HC (HMovImm 0 0)]) ++ [NMach.HC (HPush 0); NMach.HC (HPush 0); HD exit_lbl; NMach.HC (HLoad false W 0 4 W)] ++ os_exit W = NMach.HC h :: k' /\ 0 < ilen W h).
    { destruct (gret sF); cbn [app]; eexists; eexists; split; try reflexivity; clear - HW; destruct HW as [-> | ->]; reflexivity. }
    destruct X as (h & k' & X & Hh). cbn [app] in X. rewrite X in Hm. pose proof (plr _ _ _ _ Hm Hc). lia. }
  eapply (r_call W slim sp0 cb GB bytes lab funs G (F Q) [] HW Hslim Hstop L4 L3 HFF); [exact HS6|exact Hcall|exact Lam|fold p4; lia|]. fold p4. clear Hcall.
  intros r8 m8 HS7 _.
  assert (Lps : length (firstn (length ps) [argc; sp0 + W]) = length ps).
  { rewrite firstn_length. cbn [length]. lia. }
  assert (HB' : bindp W ps (firstn (length ps) [argc; sp0 + W]) V L (cmem st) (fun V' L' m' => ci W funs V n (Env V' L') body (setmem st m') (fun o s =>
     match o with OReturn v => (fun v s => Q (match rt with TVoid => 0 | _ => v mod 256 end) (cout s)) (conv W rt v) s
       | ONormal => rt = TVoid /\ (fun v s => Q (match rt with TVoid => 0 | _ => v mod 256 end) (cout s)) 0 s | _ => False end))) by (destruct rt; exact HM).
  rewrite <- Ht' in Si.
  pose proof (c_fun W slim sp0 cb GB bytes lab funs V G (F Q) [] HW Hslim Hstop L4 L3 HFF n ps rt body main_lbl Ok Si Hcf HVR
    (proj1 (proj2 (PK_all W slim sp0 cb GB bytes lab funs V G (F Q) [] HW Hslim Hstop L4 L3 HFF (HUU V Ht') HRR HVR n)) body)) as CF.
  eapply CF with (ws := skipn (length ps) [argc; sp0 + W]); clear CF; [exact HB'|exact Lam|apply arep_refl, Lps|rewrite firstn_skipn; exact HS7|].
  intros v s' ws'' r9 m9 f9 HQ Hlen Hin Hrep HS8. clear HM HB'.
  assert (Gr := gret_main _ _ _ Em).
  assert (Fin : forall r' m' f' p', r' 0 mod 256 = (match rt with TVoid => 0 | _ => v mod 256 end) -> St W slim sp0 cb GB bytes L (cmem s') sp0 (ws'' ++ skipn (length ps) [argc; sp0 + W]) m4 r' m' ->
    placed p' (NMach.HC (HPush 0) :: NMach.HC (HPush 0) :: HD exit_lbl :: NMach.HC (HLoad false W 0 4 W) :: os_exit W) ->
    wp W slim (F Q) (MS r' m' (cb + p') f' (cout s') (cin s') [])).
  { clear Hm. intros r' m' f' p' Ev Hs Hm. 
    eapply (r_push W slim sp0 cb GB bytes lab HW Hslim Hstop L4); [exact Hs|exact Hm|]. intros ra ma HSa Ja. nx Hm.
    eapply (r_push W slim sp0 cb GB bytes lab HW Hslim Hstop L4); [exact HSa|exact Hm|]. intros rb mb HSb Jb. nx Hm. nx Hm.
    pose proof (st_stk _ _ _ _ _ _ _ _ _ _ _ _ _ HSb) as Sk. cbn [stk] in Sk. destruct Sk as (_ & Sk & _).
    destruct (St_top W slim sp0 cb GB bytes HW Hslim Hstop L4 _ _ _ _ _ _ _ _ HSb) as (_ & _ & T3 & _).
    destruct (St_top W slim sp0 cb GB bytes HW Hslim Hstop L4 _ _ _ _ _ _ _ _ HSa) as (_ & T2 & _ & _).
    eapply (r_load W slim sp0 cb GB bytes lab HW Hslim Hstop L4); [exact HSb|exact Hm|discriminate|discriminate| |reflexivity|lia|].
    { destruct HW as [-> | ->]; reflexivity. }
    intros rc HSc Jc Jd. nx Hm. unfold ldv in Jc. fold (Wn W) in Jc. rewrite Sk, Z.mod_small in Jc by exact T2.
    pose proof (st_sp _ _ _ _ _ _ _ _ _ _ _ _ _ HSc) as Esp. match type of Esp with _ = _ - W * zlen ?l => pose proof (zlen_nonneg l) end.
    rewrite <- (app_nil_r (os_exit W)) in Hm.
    eapply (r_exit W slim cb bytes lab (F Q) HW Hslim L3); [exact Hm|apply HSc|apply HSc|exact Jc|nia|].
    intros t1 t2 Hst Ho. exists (r' 0 mod 256), t2. split; [exact Hst|]. rewrite Ho, Ev. exact HQ. }
  rewrite Gr in Hm. clear HS7 HS6 HS5 HS4. destruct rt; cbn [app] in Hm.
  all: try (eapply Fin; [apply byteW; exact Hrep|exact HS8|exact Hm]).
  fold p4 in Hm |- *. eapply (r_movi W slim sp0 cb GB bytes lab HW Hslim Hstop L4); [exact HS8|exact Hm|discriminate|discriminate|].
  intros rz HSz Kz _. nx Hm. eapply Fin; [rewrite Kz, Z.mod_0_l by lia; reflexivity|exact HSz|exact Hm].
Qed.
End Y.
