(** * Linking whole programs: every label of the generated code is defined once *)
From Coq Require Import ZArith List Lia Bool String.
From Verif Require Import Base Asm AsmProof X86 X86Proof X86Sem NMach NPtr CLang CProg NGen NSupp NBin NRun NBop NEqs NStat NStat2 NJudge NLink NRt NProg NMono NLab NWhole.
Import ListNotations.
Open Scope Z_scope.
Local Notation length := List.length.

(** Every declared function is defined, and so is main. *)
Definition linked (ds : list gdecl) : bool :=
  memZ id_main (dnames ds) && forallb (fun d => match d with DProto f _ => builtin f || memZ f (dnames ds) | _ => true end) ds.

Definition lb1 (g : list gbnd) (f x : Z) : Z := match look_fun f g with Some (lb, _) => n1 x lb | None => 0 end.
Fixpoint pend (g : list gbnd) (fs : list Z) (x : Z) : Z := match fs with [] => 0 | f :: r => lb1 g f x + pend g r x end.
Lemma pend_ext g g' fs x : (forall f, In f fs -> look_fun f g' = look_fun f g) -> pend g' fs x = pend g fs x.
Proof. induction fs as [|f fs IH]; intros H; cbn [pend]; [reflexivity|]. unfold lb1. rewrite (H f) by now left. rewrite IH; [reflexivity|]. intros; apply H; now right. Qed.
Lemma pend_add f lb t g fs x : NoDup fs -> In f fs -> look_fun f g = None -> pend (GFun f lb t :: g) fs x = n1 x lb + pend g fs x.
Proof.
  intros N I H. induction fs as [|h fs IH]; [destruct I|]. inversion N as [|? ? N1 N2]; subst. cbn [pend]. destruct I as [->|I].
  - unfold lb1 at 1 2. cbn [look_fun]. rewrite Z.eqb_refl, H. rewrite (pend_ext g); [lia|]. intros h Hh. cbn [look_fun]. destruct (Z.eqb_spec h f) as [->|]; [contradiction|reflexivity].
  - rewrite (IH N2 I). unfold lb1. cbn [look_fun]. destruct (Z.eqb_spec h f) as [->|]; [contradiction|]. lia.
Qed.
Lemma ind_split a b c x : a <= b <= c -> ind a c x = ind a b x + ind b c x.
Proof. intros. unfold ind. bdestr; cbn [andb]; lia. Qed.
Lemma ind_one a x : ind a (a + 1) x = n1 x a.
Proof. unfold ind, n1. bdestr; cbn [andb]; lia. Qed.
Lemma ind_nil a x : ind a a x = 0.
Proof. unfold ind. bdestr; cbn [andb]; lia. Qed.

Section X.
Variable W : Z.
(** All labels of functions have been allocated. *)
Definition lt_lbl (s : gst) : Prop := 0 <= ginit s < glbl s /\ forall f lb t, look_fun f (gglo s) = Some (lb, t) -> 0 <= lb < glbl s.
Definition gx (g : list gbnd) (x : Z) : Prop := exists f t, look_fun f g = Some (x, t).

Lemma decl_labels d ds s c s1 : NProg.codegen_glo_decl W d s = Some (c, s1) -> lt_lbl s -> NoDup (dnames (d :: ds)) ->
  (forall f rt, d = DProto f rt -> In f (dnames ds) \/ look_fun f (gglo s) <> None) ->
  glbl s <= glbl s1 /\ lt_lbl s1 /\
  (forall x, cnt x c + n1 x (ginit s1) + pend (gglo s1) (dnames ds) x = n1 x (ginit s) + pend (gglo s) (dnames (d :: ds)) x + ind (glbl s) (glbl s1) x) /\
  (forall x, used x c -> glbl s <= x < glbl s1 \/ gx (gglo s1) x).
Proof.
  intros H [T1 T2] N HP. destruct d as [x t [e|]|f rt|f ps rt b|id ms]; cbn [NProg.codegen_glo_decl] in H; cbn [dnames flat_map app] in N |- *; fold (dnames ds) in N |- *.
  - assert (E : exists g a, fst (glo_var W x t s) = GS g a (ginit s) (gloc s) (gret s) (glbl s) /\ (forall f, look_fun f g = look_fun f (gglo s))).
    { unfold glo_var. destruct (look_glo x (gglo s)) as [[? ?]|]; cbn [fst]; [destruct s; eexists; eexists; split; [reflexivity|reflexivity]|]. eexists; eexists; split; [reflexivity|]. reflexivity. }
    destruct (glo_var W x t s) as [s1' off]. cbn [fst] in E. destruct E as (g & a & -> & Eg). cbn [glbl ginit gglo gloc gret galloc] in H.
    destruct (glo_init W _ t off e _) as [[[u c'] [z l']]|] eqn:Ei; [|discriminate]. apply Some_inj, pair_equal_spec in H as [<- <-]. cbn [glbl ginit gglo gloc gret galloc].
    unfold glo_init in Ei. destruct (is_agg t); [discriminate|]. mj. match goal with X : codegen_rvalue _ _ _ _ _ = _ |- _ => apply rvl in X; destruct X as (A & B & C) end.
    cbn [fst snd gglo] in *.
    refine (conj _ (conj _ (conj _ _))).
    + lia.
    + split; cbn [ginit glbl gglo]; [lia|]. intros f lb t0 Hf. rewrite Eg in Hf. specialize (T2 _ _ _ Hf). lia.
    + intros y. specialize (B y). repeat (rewrite ?cnt_app; cbn [cnt app]). rewrite B. rewrite (pend_ext (gglo s)) by (intros; apply Eg).
      unfold n1, ind in *. bdestr; cbn [andb]; lia.
    + intros y. specialize (C y). repeat (rewrite ?used_app; cbn [used app hlabel]). intros U. 
      repeat match goal with U : _ \/ _ |- _ => destruct U as [U|U] end; try contradiction; try discriminate.
      * destruct (C U) as [|G0]; [left; lia|right; exact G0].
      * apply Some_inj in U. subst y. left. lia.
  - assert (E : exists g a, fst (glo_var W x t s) = GS g a (ginit s) (gloc s) (gret s) (glbl s) /\ (forall f, look_fun f g = look_fun f (gglo s))).
    { unfold glo_var. destruct (look_glo x (gglo s)) as [[? ?]|]; cbn [fst]; [destruct s; eexists; eexists; split; [reflexivity|reflexivity]|]. eexists; eexists; split; [reflexivity|]. reflexivity. }
    destruct E as (g & a & E & Eg). apply Some_inj, pair_equal_spec in H as [<- <-]. rewrite E. cbn [glbl ginit gglo].
    refine (conj _ (conj _ (conj _ _))); [lia| | |intros y []].
    + split; cbn [ginit glbl gglo]; [lia|]. intros f lb t0 Hf. rewrite Eg in Hf. exact (T2 _ _ _ Hf).
    + intros y. cbn [cnt]. rewrite (pend_ext (gglo s)) by (intros; apply Eg). rewrite ind_nil. lia.
  - apply Some_inj, pair_equal_spec in H as [<- <-]. unfold glo_fun. destruct (look_fun f (gglo s)) as [[lb t]|] eqn:E; cbn [fst].
    + refine (conj _ (conj _ (conj _ _))); [lia|split; assumption| |intros y []]. intros y. cbn [cnt]. rewrite ind_nil. lia.
    + cbn [glbl ginit gglo]. refine (conj _ (conj _ (conj _ _))); [lia| | |intros y []].
      * split; cbn [ginit glbl gglo]; [lia|]. intros h lb t0 Hf. cbn [look_fun] in Hf. destruct (h =? f); [apply Some_inj, pair_equal_spec in Hf as [<- _]; lia|]. specialize (T2 _ _ _ Hf). lia.
      * intros y. cbn [cnt]. destruct (HP f rt eq_refl) as [I|I]; [|contradiction]. rewrite pend_add by assumption. rewrite ind_one. lia.
  - destruct (is_agg rt); [discriminate|]. inversion N as [|? ? N1 N2]; subst.
    assert (E : exists s1' lb, glo_fun f rt s = (s1', lb) /\ glbl s <= glbl s1' /\ ginit s1' = ginit s /\ lt_lbl s1' /\ (0 <= lb < glbl s1') /\ forall x, n1 x lb + pend (gglo s1') (dnames ds) x = lb1 (gglo s) f x + pend (gglo s) (dnames ds) x + ind (glbl s) (glbl s1') x).
    { unfold glo_fun, lb1. destruct (look_fun f (gglo s)) as [[lb t]|] eqn:E.
      - eexists; eexists; split; [reflexivity|]. split; [lia|]. split; [reflexivity|]. split; [split; assumption|]. split; [exact (T2 _ _ _ E)|]. intros y. rewrite ind_nil. lia.
      - eexists; eexists; split; [reflexivity|]. cbn [glbl ginit gglo]. split; [lia|]. split; [reflexivity|]. split; [|split; [lia|]].
        + split; cbn [ginit glbl gglo]; [lia|]. intros h lb t0 Hf. cbn [look_fun] in Hf. destruct (h =? f); [apply Some_inj, pair_equal_spec in Hf as [<- _]; lia|]. specialize (T2 _ _ _ Hf). lia.
        + intros y. rewrite ind_one. rewrite (pend_ext (gglo s)); [lia|]. intros h Hh. cbn [look_fun]. destruct (Z.eqb_spec h f) as [->|]; [contradiction|reflexivity]. }
    destruct E as (s1' & lb & E & M1 & M2 & [M3 M4] & M5 & M6). rewrite E in H.
    destruct (codegen_fun W (gglo s1') lb ps b (0, glbl s1')) as [[[u c'] [z l']]|] eqn:Ef; [|discriminate]. destruct (add_params W ps (-1) []); [|discriminate].
    apply Some_inj, pair_equal_spec in H as [<- <-]. apply fun_LD in Ef as (A & B & C). cbn [snd] in *. cbn [glbl ginit gglo pend].
    refine (conj _ (conj _ (conj _ _))).
    + lia.
    + split; cbn [ginit glbl gglo]; [lia|]. intros h lb' t0 Hf. specialize (M4 _ _ _ Hf). lia.
    + intros y. rewrite (B y), M2, (ind_split (glbl s) (glbl s1')) by lia. specialize (M6 y). lia.
    + intros y U. destruct (C y U) as [|G0]; [left; lia|right; exact G0].
  - destruct (look_str id (gglo s)); [discriminate|]. apply Some_inj, pair_equal_spec in H as [<- <-]. cbn [glbl ginit gglo].
    refine (conj _ (conj _ (conj _ _))); [lia| | |intros y []].
    + split; cbn [ginit glbl gglo]; [lia|]. intros f lb t0 Hf. exact (T2 _ _ _ Hf).
    + intros y. cbn [cnt]. rewrite (pend_ext (gglo s)) by (intros; reflexivity). rewrite ind_nil. lia.
Qed.
Lemma decls_labels ds : forall s c s2, NProg.codegen_decls W ds s = Some (c, s2) -> lt_lbl s -> NoDup (dnames ds) ->
  (forall f rt, In (DProto f rt) ds -> In f (dnames ds) \/ look_fun f (gglo s) <> None) ->
  glbl s <= glbl s2 /\ lt_lbl s2 /\
  (forall x, cnt x c + n1 x (ginit s2) = n1 x (ginit s) + pend (gglo s) (dnames ds) x + ind (glbl s) (glbl s2) x) /\
  (forall x, used x c -> glbl s <= x < glbl s2 \/ gx (gglo s2) x).
Proof.
  induction ds as [|d ds IH]; intros s c s2 H T N HP.
  - cbn in H. apply Some_inj, pair_equal_spec in H as [<- <-]. refine (conj _ (conj T (conj _ _))); [lia| |intros y []]. intros y. cbn [cnt dnames flat_map pend]. rewrite ind_nil. lia.
  - apply decls_inv in H as (c1 & s1 & c2 & H1 & H2 & ->). pose proof (decl_gle W _ _ _ _ H1) as G1. pose proof (decls_gle W _ _ _ _ H2) as G2.
    assert (Nd : NoDup (dnames ds)) by (destruct d; cbn [dnames flat_map app] in N; [exact N|exact N|inversion N; assumption|exact N]).
    destruct (decl_labels d ds s c1 s1 H1 T N) as (A1 & A2 & A3 & A4).
    { intros f rt ->. destruct (HP f rt (or_introl eq_refl)) as [I|I]; auto. }
    destruct (IH s1 c2 s2 H2 A2 Nd) as (B1 & B2 & B3 & B4).
    { intros f rt I. destruct (HP f rt (or_intror I)) as [J|J].
      - destruct d as [| |h ps rt' b|]; cbn [dnames flat_map app] in J; auto. destruct J as [->|J]; [|auto]. right.
        apply decl_glo in H1 as [-> _]. unfold glo_fun. destruct (look_fun f (gglo s)) as [[lb t]|] eqn:E; cbn [fst gglo]; [rewrite E; discriminate|]. cbn [look_fun]. rewrite Z.eqb_refl. discriminate.
      - right. destruct (look_fun f (gglo s)) as [r|] eqn:E; [|congruence]. rewrite (proj1 (proj2 G1) _ _ E). discriminate. }
    refine (conj _ (conj B2 (conj _ _))); [lia| |].
    + intros y. rewrite cnt_app, (ind_split (glbl s) (glbl s1)) by lia. specialize (A3 y). specialize (B3 y). lia.
    + intros y. rewrite used_app. intros [U|U]; [destruct (A4 y U) as [|(f & t & G0)]|destruct (B4 y U)]; try (left; lia); auto. right. exists f, t. apply (proj1 (proj2 G2)), G0.
Qed.

(** ** The code of the run-time library *)
Lemma nl_mov d s : nolab (mov_opt d s).
Proof. unfold mov_opt. destruct (0 <=? s); repeat constructor. Qed.
Lemma nl_sys nr a b c : nolab (syscall_3 W nr a b c).
Proof. unfold syscall_3. destruct (W =? 4); repeat (apply nolab_app; [try apply nl_mov; repeat constructor|]); repeat constructor. Qed.
Lemma nl_putc : nolab (rt_putchar W).
Proof. unfold rt_putchar. apply nolab_app; [repeat constructor|]. apply nolab_app; [apply nl_sys|repeat constructor]. Qed.
Lemma nl_dbg m : nolab (rt_debug_go W m).
Proof. induction m as [|a m IH]; cbn [rt_debug_go]; [constructor|]. apply nolab_app; [repeat constructor|]. apply nolab_app; [apply nl_putc|exact IH]. Qed.
Lemma nl_crash m : nolab (rt_crash W m).
Proof. unfold rt_crash. apply nolab_app; [apply nl_dbg|]. apply nolab_app; [repeat constructor|]. apply nolab_app; [apply nl_putc|apply nl_sys]. Qed.
Lemma nl_alloc n : nolab (os_allocate_memory W n).
Proof. unfold os_allocate_memory. destruct (W =? 4); repeat constructor. Qed.
(** Same labels. *)
Definition keepl (c : list hop) : list hop := filter (fun o => match o with HD _ => true | HC h => match hlabel h with Some _ => true | None => false end end) c.
Lemma keep_app a b : keepl (a ++ b) = keepl a ++ keepl b.
Proof. apply filter_app. Qed.
Lemma keep_nolab c : nolab c -> keepl c = [].
Proof. induction 1 as [|[h|y] c H _ IH]; cbn [keepl filter]; [reflexivity| |contradiction]. rewrite H. exact IH. Qed.
Lemma keep_cnt x c : cnt x (keepl c) = cnt x c.
Proof. induction c as [|[h|y] c IH]; cbn [keepl filter cnt]; [reflexivity| |fold (keepl c); lia]. destruct (hlabel h); exact IH. Qed.
Lemma keep_used x c : used x (keepl c) <-> used x c.
Proof. induction c as [|[h|y] c IH]; cbn [keepl filter used]; [tauto| |exact IH]. destruct (hlabel h) eqn:E; cbn [used]; fold (keepl c); rewrite ?E, ?IH; [tauto|]. split; [auto|intros [X|X]; [discriminate|exact X]]. Qed.
Lemma keep_end s : keepl (codegen_end W s) =
  [HD setup_lbl; HC (HJump init_start_lbl); HD (ginit s); HC (HCall main_lbl); HD exit_lbl; HD read_lbl; HD write_lbl; HD open_lbl; HD close_lbl; HD fclose_lbl; HD seek_lbl; HD unlink_lbl;
   HD putchar_lbl; HD getchar_lbl; HC (HJcc NE (glbl s)); HD (glbl s); HD fopen_lbl; HC (HJcc GE (glbl s + 1)); HD (glbl s + 1); HD fgetc_lbl; HC (HJcc NE (glbl s + 2)); HD (glbl s + 2);
   HD malloc_lbl; HC (HJcc LE (glbl s + 3)); HD (glbl s + 3); HD free_lbl; HD printf_lbl].
Proof.
  unfold codegen_end, setup_code, main_code, rt_code1, rt_code2, fun_putchar, fun_getchar, rt_fgetc, rt_fopen, rt_malloc, setup_proc_args, args3, arg1, os_open, os_close, os_seek, os_unlink, os_read, os_write, os_exit, h_jump_cond_reg_reg.
  rewrite !keep_app. rewrite !(keep_nolab _ (nl_alloc _)), !(keep_nolab _ (nl_sys _ _ _ _)), !(keep_nolab _ nl_putc), !(keep_nolab _ (nl_crash _)).
  destruct (gret s); reflexivity.
Qed.
End X.
