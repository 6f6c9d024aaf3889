(** * Whole programs: the compiler's tables *)
From Coq Require Import ZArith List Lia Bool.
From Verif Require Import Base Asm AsmProof X86 X86Proof X86Sem NMach NPtr CLang CProg NGen NSupp NBin NRun NBop NEqs NStat NJudge NExpr NExpr2 NExpr3 NExpr4 NStat2 NStmt NSwitch NCall NLink NRt NMain NProg NMono NLab NSetup.
Import ListNotations.
Open Scope Z_scope.

(** ** The static check on programs *)
Definition memZ (x : Z) (l : list Z) : bool := existsb (Z.eqb x) l.
Fixpoint nodupb (l : list Z) : bool := match l with [] => true | x :: r => negb (memZ x r) && nodupb r end.
Definition vnames (ds : list gdecl) : list Z := flat_map (fun d => match d with DVar x _ _ => [x] | _ => [] end) ds.
Definition dnames (ds : list gdecl) : list Z := flat_map (fun d => match d with DFun f _ _ _ => [f] | _ => [] end) ds.
Definition fnames (ds : list gdecl) : list Z := flat_map (fun d => match d with DFun f _ _ _ | DProto f _ => [f] | _ => [] end) ds.
(** Types of the global variables, last declared first. *)
Fixpoint gtys (ds : list gdecl) (acc : list (Z * ty)) : list (Z * ty) :=
  match ds with [] => acc | DVar x t _ :: r => gtys r ((x, t) :: acc) | _ :: r => gtys r acc end.
(** The names bound by the compiler (exe.c:1669-1735). *)
Definition builtin (f : Z) : bool := (1 <=? f) && (f <=? 16).

Section S.
Variables (W : Z) (all : list gdecl).
Notation funs := (cfuns all).
Notation G := (gtys all []).
Definition sdecl (d : gdecl) : bool :=
  match d with
  | DVar x t i =>
      wfty W t && (scalar t || is_agg t) &&
      match i with
      | None => true
      | Some e => scalar t && match ctype W funs G e with Some t2 => isint t2 || is_ptr t2 | None => false end && supp W funs G (Mod (csize W t)) e
      end
  | DProto f rt => builtin f || match fun_def all f with Some (_, rt', _) => ty_eqb rt rt' | None => true end
  | DStruct _ _ => true
  | DFun f ps rt b => ((f =? id_main) || negb (builtin f)) && okp W ps && si W funs (rev ps ++ G) rt false b
  end.
(** No initializer comes after a function one of whose parameters has the name of a global variable: pnut would take
    the parameter (see PropNative). *)
Fixpoint sleft (last : list Z) (ds : list gdecl) : bool :=
  match ds with
  | [] => true
  | DVar _ _ (Some _) :: r => forallb (fun x => negb (memZ x last)) (vnames all) && sleft last r
  | DFun _ ps _ _ :: r => sleft (map fst ps) r
  | _ :: r => sleft last r
  end.
Definition sprog : bool :=
  nodupb (vnames all) && nodupb (dnames all) && forallb (fun x => negb (builtin x) && negb (memZ x (fnames all))) (vnames all) &&
  forallb sdecl all && sleft [] all.
End S.

Lemma memZ_in x l : memZ x l = true <-> In x l.
Proof. unfold memZ. rewrite existsb_exists. split; [intros (y & H & E); apply Z.eqb_eq in E; subst; auto|intros H; exists x; split; auto; apply Z.eqb_refl]. Qed.
Lemma nodupb_ok l : nodupb l = true -> NoDup l.
Proof.
  induction l as [|x l IH]; cbn [nodupb]; intros H; [constructor|]. apply andb_true_iff in H as [H1 H2]. constructor; auto.
  intros Hi. apply memZ_in in Hi. rewrite Hi in H1. discriminate.
Qed.
Lemma ty_eqb_eq a b : ty_eqb a b = true -> a = b.
Proof. apply NBin.ty_eqb_eq. Qed.
Lemma fun_def_in ds f ps rt b : NoDup (dnames ds) -> In (DFun f ps rt b) ds -> fun_def ds f = Some (ps, rt, b).
Proof.
  induction ds as [|d ds IH]; intros N []; cbn [fun_def].
  - subst d. now rewrite Z.eqb_refl.
  - destruct d; cbn [dnames flat_map app] in N; auto. inversion N; subst. destruct (Z.eqb_spec f f0) as [->|]; auto.
    exfalso. apply H2. unfold dnames. apply in_flat_map. exists (DFun f0 ps rt b). split; [auto|now left].
Qed.
Lemma fun_def_some ds f ps rt b : fun_def ds f = Some (ps, rt, b) -> In (DFun f ps rt b) ds.
Proof.
  induction ds as [|d ds IH]; cbn [fun_def]; intros H; [discriminate|]. destruct d; try (right; now apply IH).
  destruct (Z.eqb_spec f f0) as [->|]; [|right; now apply IH]. left. congruence.
Qed.

(** ** What the declarations do to the tables *)
Section T.
Variable W : Z.
Hypothesis HW : W = 4 \/ W = 8.
Notation codegen_decls := (codegen_decls W).
Notation codegen_glo_decl := (codegen_glo_decl W).

Lemma gle_refl g : gle g g. Proof. split; [|split]; auto. Qed.
Lemma gle_trans a b c : gle a b -> gle b c -> gle a c.
Proof. intros (A1 & A2 & A3) (B1 & B2 & B3). split; [|split]; auto. Qed.
Lemma gle_var x off t g : look_glo x g = None -> gle g (GVar x off t :: g).
Proof.
  intros H. split; [|split]; intros y r Hy; cbn [look_glo look_fun look_str]; auto. destruct (Z.eqb_spec y x) as [->|]; auto. congruence.
Qed.
Lemma gle_fun f lb t g : look_fun f g = None -> gle g (GFun f lb t :: g).
Proof.
  intros H. split; [|split]; intros y r Hy; cbn [look_glo look_fun look_str]; auto. destruct (Z.eqb_spec y f) as [->|]; auto. congruence.
Qed.
Lemma gle_str id ms g : look_str id g = None -> gle g (GStruct id ms :: g).
Proof.
  intros H. split; [|split]; intros y r Hy; cbn [look_glo look_fun look_str]; auto. destruct (Z.eqb_spec y id) as [->|]; auto. congruence.
Qed.
Definition two {A B} (P : A -> B -> Prop) (x : A * B) : Prop := let '(a, b) := x in P a b.
(** One declaration, as seen by the tables. *)
Lemma decl_glo d s c s1 : codegen_glo_decl d s = Some (c, s1) ->
  match d with
  | DVar x t _ => gglo s1 = gglo (fst (glo_var W x t s)) /\ galloc s1 = galloc (fst (glo_var W x t s))
  | DProto f rt | DFun f _ rt _ => gglo s1 = gglo (fst (glo_fun f rt s)) /\ galloc s1 = galloc s
  | DStruct id ms => gglo s1 = GStruct id ms :: gglo s /\ galloc s1 = galloc s /\ look_str id (gglo s) = None
  end.
Proof.
  intros H. destruct d as [x t [e|]|f rt|f ps rt b|id ms]; cbn [NProg.codegen_glo_decl] in H.
  - destruct (glo_var W x t s) as [s1' off] eqn:E. cbn [fst]. destruct (glo_init W s1' t off e _) as [[[u c'] [z l']]|]; [|discriminate].
    apply Some_inj, pair_equal_spec in H as [_ <-]. cbn [gglo galloc]. auto.
  - apply Some_inj, pair_equal_spec in H as [_ <-]. auto.
  - apply Some_inj, pair_equal_spec in H as [_ <-]. split; auto. unfold glo_fun. destruct (look_fun f (gglo s)) as [[? ?]|]; reflexivity.
  - destruct (is_agg rt); [discriminate|]. assert (Ga : galloc (fst (glo_fun f rt s)) = galloc s) by (unfold glo_fun; destruct (look_fun f (gglo s)) as [[? ?]|]; reflexivity).
    destruct (glo_fun f rt s) as [s1' lb] eqn:E. cbn [fst] in *. destruct (codegen_fun W (gglo s1') lb ps b _) as [[[u c'] [z l']]|]; [|discriminate].
    destruct (add_params W ps (-1) []); [|discriminate]. apply Some_inj, pair_equal_spec in H as [_ <-]. cbn [gglo galloc]. auto.
  - destruct (look_str id (gglo s)) eqn:E; [discriminate|]. apply Some_inj, pair_equal_spec in H as [_ <-]. cbn [gglo galloc]. auto.
Qed.
Lemma glo_var_gle x t s : gle (gglo s) (gglo (fst (glo_var W x t s))).
Proof. unfold glo_var. destruct (look_glo x (gglo s)) as [[o u]|] eqn:E; cbn [fst gglo]; [apply gle_refl|apply gle_var, E]. Qed.
Lemma glo_fun_gle f t s : gle (gglo s) (gglo (fst (glo_fun f t s))).
Proof. unfold glo_fun. destruct (look_fun f (gglo s)) as [[o u]|] eqn:E; cbn [fst gglo]; [apply gle_refl|apply gle_fun, E]. Qed.
Lemma decl_gle d s c s1 : codegen_glo_decl d s = Some (c, s1) -> gle (gglo s) (gglo s1).
Proof.
  intros H. apply decl_glo in H. destruct d; destruct H as [-> H']; [apply glo_var_gle|apply glo_fun_gle|apply glo_fun_gle|apply gle_str, H'].
Qed.
Lemma decls_inv d ds s c s2 : codegen_decls (d :: ds) s = Some (c, s2) ->
  exists c1 s1 c2, codegen_glo_decl d s = Some (c1, s1) /\ codegen_decls ds s1 = Some (c2, s2) /\ c = c1 ++ c2.
Proof.
  cbn [NProg.codegen_decls]. intros H. destruct (codegen_glo_decl d s) as [[c1 s1]|]; [|discriminate]. destruct (codegen_decls ds s1) as [[c2 s2']|] eqn:E2; [|discriminate].
  apply Some_inj, pair_equal_spec in H as [<- <-]. exists c1, s1, c2. auto.
Qed.
Lemma decls_gle ds : forall s c s2, codegen_decls ds s = Some (c, s2) -> gle (gglo s) (gglo s2).
Proof.
  induction ds as [|d ds IH]; intros s c s2 H.
  - cbn in H. apply Some_inj, pair_equal_spec in H as [_ <-]. apply gle_refl.
  - apply decls_inv in H as (c1 & s1 & c2 & H1 & H2 & _). eapply gle_trans; [eapply decl_gle; exact H1|eapply IH; exact H2].
Qed.
Section N.
Variable all : list gdecl.
(** Names in the tables are declared names, and functions have the type of their definition. *)
Definition tab_ok (g : list gbnd) : Prop :=
  (forall f r, look_fun f g = Some r -> builtin f = true \/ In f (fnames all)) /\ (forall x r, look_glo x g = Some r -> In x (vnames all)) /\
  (forall f lb t ps rt b, look_fun f g = Some (lb, t) -> builtin f = false -> fun_def all f = Some (ps, rt, b) -> t = rt) /\
  look_fun id_main g = Some (main_lbl, TVoid) /\ look_fun id_putchar g = Some (putchar_lbl, TVoid) /\ look_fun id_getchar g = Some (getchar_lbl, tchar).
Lemma decls_tab ds : (forall d, In d ds -> In d all) -> forallb (sdecl W all) ds = true -> NoDup (dnames all) -> forall s c s2, codegen_decls ds s = Some (c, s2) -> tab_ok (gglo s) -> tab_ok (gglo s2).
Proof.
  intros Hin Hs N. induction ds as [|d ds IH]; intros s c s2 H T.
  - cbn in H. apply Some_inj, pair_equal_spec in H as [_ <-]. exact T.
  - apply decls_inv in H as (c1 & s1 & c2 & H1 & H2 & _). cbn [forallb] in Hs. apply andb_true_iff in Hs as [Hd Hs].
    eapply IH; [intros; apply Hin; now right|exact Hs|exact H2|]. clear H2 IH. apply decl_glo in H1. destruct T as (T1 & T2 & T3 & T4 & T5 & T6).
    assert (FUN : forall f rt, In f (fnames all) -> (builtin f = false -> forall ps rt' b, fun_def all f = Some (ps, rt', b) -> rt = rt') -> tab_ok (gglo (fst (glo_fun f rt s)))).
    { intros f rt Hf Ht. unfold glo_fun. destruct (look_fun f (gglo s)) as [[? ?]|] eqn:E; cbn [fst gglo]; [repeat split; assumption|].
      assert (X : forall y r, look_fun y (gglo s) = Some r -> y <> f) by (intros y r Hy ->; congruence).
      repeat (refine (conj _ _)).
      - intros y r Hy. cbn [look_fun] in Hy. destruct (Z.eqb_spec y f) as [->|]; [now right|]. eapply T1; exact Hy.
      - intros y r Hy. cbn [look_glo] in Hy. eapply T2; exact Hy.
      - intros y lb t ps rt' b Hy Hb Hd'. cbn [look_fun] in Hy. destruct (Z.eqb_spec y f) as [->|]; [|eapply T3; eassumption].
        apply Some_inj, pair_equal_spec in Hy as [_ <-]. eapply Ht; eassumption.
      - cbn [look_fun]. rewrite (proj2 (Z.eqb_neq _ _) (X _ _ T4)). exact T4.
      - cbn [look_fun]. rewrite (proj2 (Z.eqb_neq _ _) (X _ _ T5)). exact T5.
      - cbn [look_fun]. rewrite (proj2 (Z.eqb_neq _ _) (X _ _ T6)). exact T6. }
    destruct d as [x t i|f rt|f ps rt b|id ms]; destruct H1 as [-> _].
    + unfold glo_var. destruct (look_glo x (gglo s)) as [[? ?]|]; cbn [fst gglo]; [repeat split; assumption|]. repeat (refine (conj _ _)); auto.
      intros y r Hy. cbn [look_glo] in Hy. destruct (Z.eqb_spec y x) as [->|]; [|eapply T2; exact Hy]. unfold vnames. apply in_flat_map. exists (DVar x t i). split; [apply Hin; now left|now left].
    + apply FUN; [unfold fnames; apply in_flat_map; exists (DProto f rt); split; [apply Hin; now left|now left]|].
      intros Hb ps rt' b Hdf. cbn [sdecl] in Hd. rewrite Hb, Hdf in Hd. cbn [orb] in Hd. now apply ty_eqb_eq.
    + apply FUN; [unfold fnames; apply in_flat_map; exists (DFun f ps rt b); split; [apply Hin; now left|now left]|].
      intros Hb ps' rt' b' Hdf. rewrite (fun_def_in all f ps rt b N) in Hdf by (apply Hin; now left). congruence.
    + repeat (refine (conj _ _)); auto.
Qed.
Lemma tab_begin : tab_ok begin_glo.
Proof.
  unfold begin_glo. repeat (refine (conj _ _)); try reflexivity.
  - intros f r H. left. cbn [look_fun] in H. unfold builtin.
    repeat (match type of H with context [f =? ?k] => destruct (Z.eqb_spec f k) as [->|] in H; [reflexivity|] end). discriminate.
  - intros x r H. discriminate.
  - intros f lb t ps rt b H Hb _. exfalso. cbn [look_fun] in H.
    repeat (match type of H with context [f =? ?k] => destruct (Z.eqb_spec f k) as [->|] in H; [discriminate Hb|] end). discriminate.
Qed.
End N.
(** Every function definition has been compiled somewhere. *)
Lemma decls_fun ds cb bytes lab G : forall s c s2 p, codegen_decls ds s = Some (c, s2) -> placed W cb bytes lab p c -> gle (gglo s2) G -> (forall f r, look_fun f G = Some r -> look_glo f G = None) ->
  forall f ps rt b, In (DFun f ps rt b) ds -> exists lb t, look_fun f G = Some (lb, t) /\
    exists s0 u code s' q, codegen_fun W G lb ps b s0 = Some (u, code, s') /\ placed W cb bytes lab q code.
Proof.
  induction ds as [|d ds IH]; intros s c s2 p H Hp HG ND f ps rt b Hin; [destruct Hin|].
  apply decls_inv in H as (c1 & s1 & c2 & H1 & H2 & ->). apply (placed_app _ _ _ _ HW) in Hp as [Hp1 Hp2].
  destruct Hin as [->|Hin]; [|eapply IH; eassumption]. clear IH.
  assert (G1 : gle (gglo s1) G) by (eapply gle_trans; [eapply decls_gle; exact H2|exact HG]).
  cbn [NProg.codegen_glo_decl] in H1. destruct (is_agg rt); [discriminate|]. assert (Ef : exists t, look_fun f (gglo (fst (glo_fun f rt s))) = Some (snd (glo_fun f rt s), t)).
  { unfold glo_fun. destruct (look_fun f (gglo s)) as [[lb t]|] eqn:E; cbn [fst snd gglo]; [eauto|]. cbn [look_fun]. rewrite Z.eqb_refl. eauto. }
  destruct (glo_fun f rt s) as [s1' lb]. cbn [fst snd] in Ef. destruct Ef as [t Ef].
  destruct (codegen_fun W (gglo s1') lb ps b (0, glbl s1')) as [[[u c'] [z l']]|] eqn:EC; [|discriminate]. destruct (add_params W ps (-1) []); [|discriminate].
  apply Some_inj, pair_equal_spec in H1 as [-> <-]. cbn [gglo] in G1. exists lb, t. split; [apply (proj1 (proj2 G1)), Ef|].
  do 5 eexists. split; [|exact Hp1]. eapply (fun_le W (gglo s1') G G1 ND). exact EC.
Qed.
End T.

(** ** Placing the global variables *)
Section V.
Variable W : Z.
Hypothesis HW : W = 4 \/ W = 8.
Lemma csize_pos t : wfty W t = true -> scalar t || is_agg t = true -> 0 < csize W t.
Proof. intros Hw Hs. pose proof (csize_ge1 W HW t Hw Hs). lia. Qed.
Lemma tw_ge t : wfty W t = true -> scalar t || is_agg t = true -> csize W t <= type_width W t true true.
Proof.
  intros Hw Hs. pose proof (csize_pos t Hw Hs). unfold type_width, word_size_align. rewrite (width_true W). 
  pose proof (Z.div_mod (csize W t + W - 1) W). pose proof (Z.mod_pos_bound (csize W t + W - 1) W). destruct HW; lia.
Qed.
Variables (all : list gdecl) (GB : Z).
Hypothesis HGB : 0 < GB.
Definition VG (V : list (Z * (Z * ty))) (g : list gbnd) : Prop := forall x a t, lookupZ V x = Some (a, t) -> exists off, look_glo x g = Some (off, t) /\ a = GB + off /\ 0 <= a < MOD W.
Lemma VG_le V g g' : gle g g' -> VG V g -> VG V g'.
Proof. intros H HV x a t Hx. destruct (HV x a t Hx) as (off & A & B). exists off. split; [apply (proj1 H), A|exact B]. Qed.
Lemma globals_ok ds : forallb (sdecl W all) ds = true -> forall s c s2 V L K, codegen_decls W ds s = Some (c, s2) -> NoDup (vnames ds) ->
  (forall x, In x (vnames ds) -> look_glo x (gglo s) = None) -> 0 <= galloc s -> GB + galloc s2 < MOD W ->
  (forall x, inlive L x -> x < GB + galloc s \/ GB + galloc s2 <= x) ->
  globals W ds V L K -> VG V (gglo s) ->
  galloc s <= galloc s2 /\ exists V' L', K V' L' /\ VG V' (gglo s2) /\ tys V' = gtys ds (tys V) /\ (forall x, inlive L x -> inlive L' x) /\
    (forall x, inlive L' x -> inlive L x \/ GB + galloc s <= x < GB + galloc s2) /\ (forall x t i, In (DVar x t i) ds -> exists a, lookupZ V' x = Some (a, t)) /\
    (forall x, ~ In x (vnames ds) -> lookupZ V' x = lookupZ V x).
Proof.
  intros Hs. induction ds as [|d ds IH]; intros s c s2 V L K H N HN H0 HM HL HK HV.
  - cbn in H. apply Some_inj, pair_equal_spec in H as [_ <-]. split; [lia|]. exists V, L. cbn [globals gtys] in *. repeat split; auto. intros ? ? ? [].
  - apply decls_inv in H as (c1 & s1 & c2 & H1 & H2 & _). cbn [forallb] in Hs. apply andb_true_iff in Hs as [Hd Hs]. specialize (IH Hs).
    assert (Mono : galloc s1 <= galloc s2).
    { clear - HW Hs H2. revert s1 c2 s2 H2. induction ds as [|d ds IH]; intros s1 c2 s2 H2; [cbn in H2; apply Some_inj, pair_equal_spec in H2 as [_ <-]; lia|].
      apply decls_inv in H2 as (c1 & s3 & c3 & H1 & H3 & _). cbn [forallb] in Hs. apply andb_true_iff in Hs as [Hd Hs]. specialize (IH Hs _ _ _ H3). apply decl_glo in H1.
      destruct d; destruct H1 as [_ H1]; try lia. unfold glo_var in H1. destruct (look_glo x (gglo s1)) as [[? ?]|]; cbn [fst galloc] in H1; [lia|].
      cbn [sdecl] in Hd. apply andb_true_iff in Hd as [Hd _]. apply andb_true_iff in Hd as [Hw Hsc]. pose proof (tw_ge _ Hw Hsc). pose proof (csize_pos _ Hw Hsc). lia. }
    pose proof (decl_gle W _ _ _ _ H1) as Hle. apply decl_glo in H1. destruct d as [x t i|f rt|f ps rt b|id ms]; destruct H1 as [E1 E2].
    + cbn [sdecl] in Hd. apply andb_true_iff in Hd as [Hd _]. apply andb_true_iff in Hd as [Hw Hsc]. pose proof (tw_ge _ Hw Hsc) as Tg. pose proof (csize_pos _ Hw Hsc) as Tp.
      assert (Lx : look_glo x (gglo s) = None) by (apply HN; now left). unfold glo_var in E1, E2. rewrite Lx in E1, E2. cbn [fst gglo galloc] in E1, E2.
      cbn [vnames flat_map app] in N. inversion N as [|? ? N1 N2]; subst. fold (vnames ds) in N1, N2. cbn [globals] in HK.
      set (a := GB + galloc s) in *. assert (Fr : fresh W L a (csize W t)).
      { split; [unfold a; lia|]. split; [unfold a; lia|]. intros y Hy Hl. specialize (HL y Hl). unfold a in *. lia. }
      specialize (HK a Fr). destruct (IH s1 c2 s2 ((x, (a, t)) :: V) ((a, csize W t) :: L) K H2 N2) as (G1 & V' & L' & A1 & A2 & A3 & A4 & A5 & A6 & A7).
      * intros y Hy. rewrite E1. cbn [look_glo]. destruct (Z.eqb_spec y x) as [->|]; [contradiction|]. apply HN. right. exact Hy.
      * lia.
      * exact HM.
      * intros y [b [[<-|Hb] Hy]]; cbn [fst snd] in Hy; [unfold a in *; lia|]. assert (Hl : inlive L y) by (exists b; auto). specialize (HL y Hl). unfold a in *. lia.
      * exact HK.
      * intros y b u Hy. cbn [lookupZ] in Hy. rewrite E1. cbn [look_glo]. destruct (y =? x) eqn:Ey.
        -- apply Some_inj, pair_equal_spec in Hy as [<- <-]. exists (galloc s). split; [reflexivity|]. unfold a. lia.
        -- apply HV in Hy. exact Hy.
      * split; [lia|]. exists V', L'. split; [exact A1|]. split; [exact A2|]. split; [exact A3|].
        split. { intros y [b [Hb Hy]]. apply A4. exists b. split; [now right|exact Hy]. }
        split. { intros y Hy. destruct (A5 y Hy) as [[b [[<-|Hb] Hy']]|Hy']; cbn [fst snd] in *; [right; unfold a in *; lia|left; exists b; auto|right; unfold a in *; lia]. }
        split. { intros y u j [Hy|Hy]; [|apply (A6 _ _ _ Hy)]. injection Hy as <- <- <-. rewrite (A7 _ N1). cbn [lookupZ]. rewrite Z.eqb_refl. eauto. }
        intros y Hy. cbn [vnames flat_map app] in Hy. rewrite A7 by (intros Hc; apply Hy; now right). cbn [lookupZ]. destruct (Z.eqb_spec y x) as [->|]; [exfalso; apply Hy; now left|reflexivity].
    + cbn [globals] in HK. destruct (IH s1 c2 s2 V L K H2 N) as (G1 & V' & L' & A1 & A2 & A3 & A4 & A5 & A6 & A7); try (rewrite E2; assumption); auto.
      * intros y Hy. rewrite E1. unfold glo_fun. destruct (look_fun f (gglo s)) as [[? ?]|]; cbn [fst gglo look_glo]; apply HN, Hy.
      * eapply VG_le; eassumption.
      * rewrite E2 in *. split; [exact G1|]. exists V', L'. do 5 (split; [assumption|]). split; [|exact A7]. intros y u j [Hy|Hy]; [discriminate|eauto].
    + cbn [globals] in HK. destruct (IH s1 c2 s2 V L K H2 N) as (G1 & V' & L' & A1 & A2 & A3 & A4 & A5 & A6 & A7); try (rewrite E2; assumption); auto.
      * intros y Hy. rewrite E1. unfold glo_fun. destruct (look_fun f (gglo s)) as [[? ?]|]; cbn [fst gglo look_glo]; apply HN, Hy.
      * eapply VG_le; eassumption.
      * rewrite E2 in *. split; [exact G1|]. exists V', L'. do 5 (split; [assumption|]). split; [|exact A7]. intros y u j [Hy|Hy]; [discriminate|eauto].
    + cbn [globals] in HK. destruct E2 as [E2 _]. destruct (IH s1 c2 s2 V L K H2 N) as (G1 & V' & L' & A1 & A2 & A3 & A4 & A5 & A6 & A7); try (rewrite E2; assumption); auto.
      * intros y Hy. rewrite E1. cbn [look_glo]. apply HN, Hy.
      * eapply VG_le; eassumption.
      * rewrite E2 in *. split; [exact G1|]. exists V', L'. do 5 (split; [assumption|]). split; [|exact A7]. intros y u j [Hy|Hy]; [discriminate|eauto].
Qed.
End V.
