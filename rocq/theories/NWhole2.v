(** * Whole programs: start-up, initializers, main, exit *)
From Coq Require Import ZArith List Lia Bool.
From Verif Require Import Base Asm AsmProof X86 X86Proof X86Sem NMach NPtr CLang CProg NGen NSupp NBin NRun NBop NEqs NStat NJudge NExpr NExpr2 NExpr3 NExpr4 NStat2 NStmt NSwitch NCall NLink NRt NMain NProg NMono NLab NSetup NWhole.
Import ListNotations.
Open Scope Z_scope.

Section X.
Variables (W slim STOP cb GB : Z) (bytes : list Z) (lab : Z -> option Z).
Variables (funs : cdecls) (gvars : list (Z * (Z * ty))) (glo : list gbnd) (F : mst -> Prop) (mp : list Z).
Hypothesis HW : W = 4 \/ W = 8.
Hypothesis Hslim : 0 < slim.
Hypothesis Hstop : STOP < MOD W.
Hypothesis Hdis : STOP <= cb \/ cb + zlen bytes <= slim.
Hypothesis Hcb : 0 <= cb /\ cb + zlen bytes <= MOD W.
Hypothesis HF : decl_ok funs glo.
Set Default Proof Using "HW Hslim Hstop Hdis Hcb HF gvars".
Notation placed := (placed W cb bytes lab).
Notation hsize := (hsize W).
Notation wp := (wp W slim).
Notation MOD := (MOD W).
Notation St := (St W slim STOP cb GB bytes).
Notation EX := (EX W slim STOP cb GB bytes lab funs gvars glo F mp).
Notation LX := (LX W slim STOP cb GB bytes lab funs gvars glo F mp).
Notation AX := (AX W slim STOP cb GB bytes lab funs gvars glo F mp).
Notation CX := (CX W slim STOP cb GB bytes lab funs gvars glo F mp).
Notation VR := (VR W GB glo).
Notation vok := (vok W funs).
Ltac ap R ::= eapply R; [exact HW|exact Hslim|exact Hstop|exact Hdis|..].
Ltac apx R ::= eapply R; [exact HW|exact Hslim|exact Hstop|exact Hdis|exact Hcb|exact HF|..].
Notation cs := (cs W funs gvars).
Notation cw := (cw W funs gvars).
Notation sep := (sep slim cb bytes).
Notation FR := (FR slim).
Notation ss := (ss W funs).
Notation sw := (sw W funs).
Notation cgs := (codegen_statement W glo).
Notation cgw := (codegen_swl W glo).
Notation Xt := (Xt W slim cb GB bytes).
Notation XK := (XK W slim cb GB bytes lab F mp).
Notation SX := (SX W slim STOP cb GB bytes lab funs gvars glo F mp).
Ltac plc Hp Hp1 := apply (placed_app _ _ _ _ HW) in Hp as [Hp1 Hp].
Notation IX := (IX W slim STOP cb GB bytes lab funs gvars glo F mp).
Hypothesis HU : forall g, fun_ok W cb bytes lab funs gvars glo g.
Hypothesis HR : forall g, rt_ok W cb bytes lab funs glo g.
Hypothesis HG : VR gvars [] 0.
Hypothesis ND : forall f r, look_fun f glo = Some r -> look_glo f glo = None.
Set Default Proof Using "HW Hslim Hstop Hdis Hcb HF HU HR HG ND".
Lemma EX_all k e : EX k e.
Proof.
  destruct (expr_all W slim STOP cb GB bytes lab funs gvars glo F mp HW Hslim Hstop Hdis Hcb HF k) as (A & _); [|apply A].
  intros j _. apply (PK_all W slim STOP cb GB bytes lab funs gvars glo F mp HW Hslim Hstop Hdis Hcb HF HU HR HG j).
Qed.
Lemma r_write_o E t L mem base ws m0 r m p k f o i a b off src v (s : cst) Q : St L mem base ws m0 r m -> L = live E -> mem = cmem s ->
  wfty W t = true -> r b + off = a -> 0 <= a < MOD -> eqm (csize W t) (r src) v -> writes W E t a v s Q ->
  placed p (HC (HStore (csize W t) b off src) :: k) ->
  (forall s' m', Q s' -> cout s' = cout s -> cin s' = cin s -> St L (cmem s') base ws m0 r m' ->
     wp F (MS r m' (cb + (p + ilen W (HStore (csize W t) b off src))) f o i mp)) ->
  wp F (MS r m (cb + p) f o i mp).
Proof.
  intros H -> -> Wt Er Ra Ev (Sc & Hb & HQ) Hp K.
  assert (Sz : 1 <= csize W t <= W) by (apx sc_size; auto).
  eapply wp_store; [apply (st_code _ _ _ _ _ _ _ _ _ _ _ _ _ H)|exact Hp|lia|].
  rewrite Er. eapply K; [exact HQ|reflexivity|reflexivity|]. cbn [cmem setmem]. unfold storev.
  eapply St_write; eauto. lia.
Qed.
Variable all : list gdecl.
Hypothesis Hfuns : funs = cfuns all.
Hypothesis Htys : tys gvars = gtys all [].
Hypothesis Hvn : forall x a t, lookupZ gvars x = Some (a, t) -> In x (vnames all).
Set Default Proof Using "HW Hslim Hstop Hdis Hcb HF HU HR HG ND Hfuns Htys Hvn".
Lemma VR_left loc fp : forallb (fun x => match look_loc x loc with None => true | _ => false end) (vnames all) = true -> VR gvars loc fp.
Proof.
  intros H x a t Hx. destruct (HG x a t Hx) as [Ha Hr]. split; [|exact Hr]. right. right.
  rewrite forallb_forall in H. specialize (H x (Hvn _ _ _ Hx)). destruct (look_loc x loc); [discriminate|]. split; [reflexivity|].
  destruct Ha as [(y & off & A & _)|[(y & off & A & _)|[_ A]]]; try discriminate. exact A.
Qed.
Lemma params_look ps : forall fs loc loc' x, add_params W ps fs loc = Some loc' -> memZ x (map fst ps) = false -> look_loc x loc = None -> look_loc x loc' = None.
Proof using.
  induction ps as [|[y t] ps IH]; intros fs loc loc' x H Hm Hl; cbn [add_params] in H; [apply Some_inj in H as <-; exact Hl|].
  destruct (look_loc y loc); [discriminate|]. cbn [map memZ existsb fst] in Hm. apply orb_false_iff in Hm as [H1 H2]. eapply IH; [exact H|exact H2|]. cbn [look_loc]. rewrite H1. exact Hl.
Qed.
Definition lok (last : list Z) (loc : list bnd) : Prop := forall x, memZ x last = false -> look_loc x loc = None.
Lemma init_run k ds : forallb (sdecl W all) ds = true -> forall last s c s2 p a L st K base m0 r m f,
  codegen_decls W ds s = Some (c, s2) -> placed p c -> gle (gglo s2) glo -> lab (ginit s) = Some a -> lok last (gloc s) -> sleft all last ds = true ->
  (forall x t i, In (DVar x t i) ds -> exists b, lookupZ gvars x = Some (b, t)) ->
  inits W funs k gvars L ds st K -> St L (cmem st) base [] m0 r m ->
  (forall st' r' m' f' a', K st' -> lab (ginit s2) = Some a' -> St L (cmem st') base [] m0 r' m' -> wp F (MS r' m' (cb + a') f' (cout st') (cin st') mp)) ->
  wp F (MS r m (cb + a) f (cout st) (cin st) mp).
Proof.
  induction ds as [|d ds IH]; intros Hs last s c s2 p a L st K base m0 r m f H Hp Hg La Hl Hsl Hv HI HS KN.
  - cbn in H. apply Some_inj, pair_equal_spec in H as [_ <-]. cbn [inits] in HI. eapply KN; [exact HI|exact La|exact HS].
  - cbn [forallb] in Hs. apply andb_true_iff in Hs as [Hd Hs]. apply decls_inv in H as (c1 & s1 & c2 & H1 & H2 & ->). plc Hp Hp1. specialize (IH Hs).
    pose proof (decls_gle W _ _ _ _ H2) as G2. pose proof (decl_gle W _ _ _ _ H1) as G1.
    destruct d as [x t [e|]|g rt|g ps rt b|id ms]; cbn [NProg.codegen_glo_decl] in H1.
    + (* a variable with an initializer *)
      cbn [sleft] in Hsl. apply andb_true_iff in Hsl as [Hfr Hsl].
      assert (HVl : VR gvars (gloc s) base).
      { apply VR_left. rewrite forallb_forall in Hfr |- *. intros y Hy. specialize (Hfr y Hy). apply negb_true_iff in Hfr. now rewrite (Hl y Hfr). }
      assert (Eg : look_glo x (gglo (fst (glo_var W x t s))) = Some (snd (glo_var W x t s), t) \/ exists u, look_glo x (gglo s) = Some (snd (glo_var W x t s), u)).
      { unfold glo_var. destruct (look_glo x (gglo s)) as [[o u]|] eqn:E; cbn [fst snd gglo]; [right; eauto|]. left. cbn [look_glo]. now rewrite Z.eqb_refl. }
      assert (Es : gloc (fst (glo_var W x t s)) = gloc s /\ ginit (fst (glo_var W x t s)) = ginit s) by (unfold glo_var; destruct (look_glo x (gglo s)) as [[? ?]|]; auto).
      pose proof (glo_var_gle W x t s) as Gv.
      destruct (glo_var W x t s) as [s1' off]. cbn [fst snd] in *. destruct Es as [El Ei]. unfold glo_init in H1. destruct (is_agg t) eqn:Ia; [discriminate|].
      match type of H1 with context [match ?y with _ => _ end] => destruct y as [[[u c'] [z l']]|] eqn:EC; [|discriminate] end. apply Some_inj, pair_equal_spec in H1 as [<- <-]. cbn [gglo ginit gloc] in *.
      cbn [sdecl] in Hd. apply andb_true_iff in Hd as [Hd Hi]. apply andb_true_iff in Hd as [Hw Hsc]. apply andb_true_iff in Hi as [Hi Hsp]. apply andb_true_iff in Hi as [Hsca _].
      cbn [inits] in HI. destruct (Hv x t (Some e) (or_introl eq_refl)) as [b Hb]. rewrite Hb in HI. destruct (HG x b t Hb) as [Hat Rb].
      assert (Eo : look_glo x glo = Some (off, t) /\ b = GB + off).
      { destruct Hat as [(y & o' & A & _)|[(y & o' & A & _)|(_ & o' & A & B)]]; try discriminate.
        assert (X : exists u, look_glo x glo = Some (off, u)).
        { destruct Eg as [Eg|[u' Eg]]; [exists t; apply (proj1 Hg), (proj1 G2), Eg|]. exists u'. apply (proj1 Hg), (proj1 G2), (proj1 Gv), Eg. }
        destruct X as [u' X]. rewrite X in A. apply Some_inj, pair_equal_spec in A as [-> ->]. auto. }
      destruct Eo as [_ Eb]. assert (G3 : gle (gglo s1') glo) by (eapply gle_trans; [exact G2|exact Hg]).
      cbn [app] in Hp1. destruct Hp1 as [L0 Hp1]. rewrite Ei, La in L0. apply Some_inj in L0. subst p. rewrite El in EC. set (l0 := glbl s1') in *. clearbody l0.
      mj. unfold reg_X, reg_glo in *. match goal with X : codegen_rvalue _ _ _ _ _ = Some _ |- _ => apply (proj1 (proj1 (rv_le W (gglo s1') glo G3 ND (gloc s)) e)) in X; rename X into GE end.
      norm Hp1. apply (placed_app _ _ _ _ HW) in Hp1 as [Hp2 Hp1]. assert (Tw : type_width W t true false = csize W t) by (unfold type_width; rewrite width_true; reflexivity). rewrite Tw in *.
      assert (Hsp' : supp W funs (tys (vars (Env gvars L))) (Mod (csize W t)) e = true) by (cbn [vars]; rewrite Htys, Hfuns; exact Hsp).
      assert (Sz : 1 <= csize W t <= W) by (apx sc_size; auto).
      eapply (EX_all k e) with (E := Env gvars L) (fp := base); [exact HI|exact Hsp'| |exact GE|exact HVl|exact Hp2|exact HS| |].
      * cbn. lia.
      * change (zlen (@nil Z)) with 0. lia.
      * clear HS. intros v st1 w r1 m1 f1 HQ Vk Rv HS. cbn [live] in HS. tpop HS Hp1 r2 E2 Eq2. cbv beta in HQ.
        eapply r_write_o with (E := Env gvars L); [exact HS|reflexivity|reflexivity|exact Hw| |exact Rb| |exact HQ|exact Hp1|].
        -- pose proof (st_glo _ _ _ _ _ _ _ _ _ _ _ _ _ HS). lia.
        -- rewrite E2. exact Rv.
        -- clear HS. intros st2 m2 HQ2 Eo Ein HS. nx Hp1. rewrite <- Eo, <- Ein.
           pose proof (st_code _ _ _ _ _ _ _ _ _ _ _ _ _ HS) as Hcd.
           assert (exists a', lab l0 = Some a') as [a' La'].
           { destruct Hp1 as [Hd1 _]. destruct (Hd1 _ Hcd) as (_ & X & _). specialize (X l0 eq_refl). destruct (lab l0); [eauto|congruence]. }
           eapply wp_jump; [exact Hcd|exact Hp1|exact La'|].
           eapply IH; [exact H2|exact Hp|exact Hg|exact La'| |exact Hsl| |exact HQ2|exact HS|exact KN].
           ++ cbn [gloc]. rewrite El. exact Hl.
           ++ intros; eapply Hv; right; eassumption.
    + apply Some_inj, pair_equal_spec in H1 as [<- <-]. cbn [inits sleft] in *.
      eapply IH; [exact H2|exact Hp|exact Hg| | |exact Hsl| |exact HI|exact HS|exact KN].
      * unfold glo_var. destruct (look_glo x (gglo s)) as [[? ?]|]; exact La.
      * unfold glo_var. destruct (look_glo x (gglo s)) as [[? ?]|]; exact Hl.
      * intros; eapply Hv; right; eassumption.
    + apply Some_inj, pair_equal_spec in H1 as [<- <-]. cbn [inits sleft] in *.
      eapply IH; [exact H2|exact Hp|exact Hg| | |exact Hsl| |exact HI|exact HS|exact KN].
      * unfold glo_fun. destruct (look_fun g (gglo s)) as [[? ?]|]; exact La.
      * unfold glo_fun. destruct (look_fun g (gglo s)) as [[? ?]|]; exact Hl.
      * intros; eapply Hv; right; eassumption.
    + destruct (is_agg rt); [discriminate|]. assert (Ei : ginit (fst (glo_fun g rt s)) = ginit s) by (unfold glo_fun; destruct (look_fun g (gglo s)) as [[? ?]|]; reflexivity).
      destruct (glo_fun g rt s) as [s1' lb]. cbn [fst] in Ei. destruct (codegen_fun W (gglo s1') lb ps b (0, glbl s1')) as [[[u c'] [z l']]|]; [|discriminate].
      destruct (add_params W ps (-1) []) as [loc|] eqn:Ep; [|discriminate]. apply Some_inj, pair_equal_spec in H1 as [<- <-]. cbn [inits sleft gglo] in *.
      eapply IH; [exact H2|exact Hp|exact Hg| | |exact Hsl| |exact HI|exact HS|exact KN].
      * cbn [ginit]. rewrite Ei. exact La.
      * cbn [gloc]. intros y Hy. eapply params_look; [exact Ep|exact Hy|reflexivity].
      * intros; eapply Hv; right; eassumption.
    + destruct (look_str id (gglo s)); [discriminate|]. apply Some_inj, pair_equal_spec in H1 as [<- <-]. cbn [inits sleft] in *.
      eapply IH; [exact H2|exact Hp|exact Hg|exact La|exact Hl|exact Hsl| |exact HI|exact HS|exact KN].
      intros; eapply Hv; right; eassumption.
Qed.
End X.
