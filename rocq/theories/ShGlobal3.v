(** * Global declarations: the invariant of the start of a script *)
From Coq Require Import ZArith List Lia Bool.
From Verif Require Import Base Numerals Output Ast Parse ShArith ShExpr ShCSem ShEqs ShFacts ShFacts2 ShSyn ShSem ShMain ShMain2 ShMain3 ShMain6 PropShArith ShGlobal ShGlobal1 ShGlobal2.
Import ListNotations.
Open Scope Z_scope.
Local Notation length := List.length.

Record gnames (vn mn zn : nat -> name) : Prop := {
  gn_minj : forall j k, mn j = mn k -> j = k;
  gn_zinj : forall j k, zn j = zn k -> j = k;
  gn_mz : forall j k, mn j <> zn k;
  gn_v : forall x, ~ In (vn x) (ALLOC :: scratch);
  gn_m : forall k, ~ In (mn k) (ALLOC :: scratch);
  gn_z : forall k, ~ In (zn k) (ALLOC :: scratch) }.

Section G.
Variable N : Z.
Hypothesis HN : 32 <= N.
Variables (vn mn zn : nat -> name) (moff zsz : nat -> Z).
Hypothesis NK : names_ok vn mn zn moff zsz.
Hypothesis GN : gnames vn mn zn.
Variable sev : list item -> vars -> option (list Z * vars).
Hypothesis SE : forall t g l g1, exp N t g l g1 -> sev t g = Some (l, g1).
Variable tag : bool.
Notation rv := (comp_rvalue_go vn mn zn).
Notation reads := (reads sev). Notation gstep := (gstep sev tag). Notation grun := (grun sev tag).
Notation base := (base tag).

(** ** Names *)
Lemma cell_inj a b : cell a = cell b -> a = b.
Proof. intros E. unfold cell in E. injection E as E. apply decimal_inj_all, E. Qed.
Lemma cell_other a : ~ In (cell a) (ALLOC :: scratch).
Proof.
  unfold cell. destruct (decimal_head a) as (d & r & -> & Hd). intros H.
  assert (F : Forall (fun n => match n with _ :: x :: _ => x = 95 | _ => False end) (ALLOC :: scratch)) by (repeat constructor).
  rewrite Forall_forall in F. exact (Hd (F _ H)).
Qed.
Lemma vm x k : vn x <> mn k. Proof. eapply (nk_vconst _ _ _ _ _ NK). apply cn_mem. Qed.
Lemma vz x k : vn x <> zn k. Proof. eapply (nk_vconst _ _ _ _ _ NK). apply cn_siz. Qed.
Lemma v_cell x a : vn x <> cell a. Proof. apply (nk_vcell _ _ _ _ _ NK). Qed.
Lemma m_cell x a : mn x <> cell a. Proof. apply (nk_mcell _ _ _ _ _ NK). Qed.
Lemma z_cell x a : zn x <> cell a. Proof. apply (nk_zcell _ _ _ _ _ NK). Qed.
Lemma v_alloc x : vn x <> ALLOC. Proof. intros E. apply (gn_v _ _ _ GN x). left. auto. Qed.
Lemma m_alloc x : mn x <> ALLOC. Proof. intros E. apply (gn_m _ _ _ GN x). left. auto. Qed.
Lemma z_alloc x : zn x <> ALLOC. Proof. intros E. apply (gn_z _ _ _ GN x). left. auto. Qed.
Lemma c_alloc x : cell x <> ALLOC. Proof. intros E. apply (cell_other x). left. auto. Qed.
Lemma alloc_scratch : ~ In ALLOC scratch.
Proof.
  intros H. assert (F : forallb (fun n => negb (if list_eq_dec Z.eq_dec ALLOC n then true else false)) scratch = true) by (vm_compute; reflexivity).
  rewrite forallb_forall in F. specialize (F _ H). destruct (list_eq_dec Z.eq_dec ALLOC ALLOC); [discriminate|congruence].
Qed.
Lemma setx_eq n v st : gv (setx n v st) n = Some v.
Proof. cbn [setx gv]. destruct (list_eq_dec _ _ _); [reflexivity|congruence]. Qed.
Lemma setx_ne n v st m : m <> n -> gv (setx n v st) m = gv st m.
Proof. intros H. cbn [setx gv]. destruct (list_eq_dec _ _ _); [congruence|reflexivity]. Qed.
Lemma setro_eq n st : gro (setro n st) n = true.
Proof. cbn [setro gro]. destruct (list_eq_dec _ _ _); [reflexivity|congruence]. Qed.
Lemma setro_ne n st m : m <> n -> gro (setro n st) m = gro st m.
Proof. intros H. cbn [setro gro]. destruct (list_eq_dec _ _ _); [congruence|reflexivity]. Qed.

(** ** Runs *)
Definition step_ok (k : gcmd) (P Q : gst -> Prop) : Prop :=
  forall st, P st -> (exists st', gstep k st st') /\ forall st', gstep k st st' -> Q st'.
Definition run_ok (l : list gcmd) (P Q : gst -> Prop) : Prop :=
  forall st, P st -> (exists st', grun l st st') /\ forall st', grun l st st' -> Q st'.
Lemma run_nil (P Q : gst -> Prop) : (forall st, P st -> Q st) -> run_ok [] P Q.
Proof. intros H st Hp. split; [exists st; constructor|]. intros st' R. inversion R; subst. auto. Qed.
Lemma run_cons k l P Q R : step_ok k P Q -> run_ok l Q R -> run_ok (k :: l) P R.
Proof.
  intros H1 H2 st Hp. destruct (H1 st Hp) as [(s1 & E1) U1]. destruct (H2 s1 (U1 _ E1)) as [(s2 & E2) _]. split.
  - exists s2. econstructor; eauto.
  - intros st' X. inversion X; subst. match goal with Y : gstep k st ?s |- _ => exact (proj2 (H2 _ (U1 _ Y)) _ ltac:(eassumption)) end.
Qed.
Lemma run_one k P Q : step_ok k P Q -> run_ok [k] P Q.
Proof. intros H. eapply run_cons; [exact H|]. apply run_nil. auto. Qed.
Lemma run_app l1 : forall l2 P Q R, run_ok l1 P Q -> run_ok l2 Q R -> run_ok (l1 ++ l2) P R.
Proof.
  intros l2 P Q R H1 H2 st Hp. destruct (H1 st Hp) as [(s1 & E1) U1]. destruct (H2 s1 (U1 _ E1)) as [(s2 & E2) _]. split.
  - exists s2. clear - E1 E2. induction E1; [exact E2|]. cbn [app]. econstructor; eauto.
  - intros st' X. assert (Y : exists m, grun l1 st m /\ grun l2 m st').
    { clear - X. revert st X. induction l1 as [|k l IH]; intros st X; [exists st; split; [constructor|exact X]|].
      cbn [app] in X. inversion X; subst. match goal with Z : grun (l ++ l2) _ _ |- _ => destruct (IH _ Z) as (m & M1 & M2) end.
      exists m. split; [econstructor; eauto|exact M2]. }
    destruct Y as (m & M1 & M2). exact (proj2 (H2 _ (U1 _ M1)) _ M2).
Qed.
Lemma run_pre l (P P' Q : gst -> Prop) : (forall st, P st -> P' st) -> run_ok l P' Q -> run_ok l P Q.
Proof. intros H1 H2 st Hp. exact (H2 st (H1 st Hp)). Qed.

(** ** Words *)
Definition ext0 (st : gst) : vars := fun n => match gv st n with Some v => v | None => 0 end.
Lemma ext0_ok st : extends (ext0 st) st.
Proof. intros n v E. unfold ext0. rewrite E. reflexivity. Qed.
Lemma reads_fun w st v v' : reads w st v -> reads w st v' -> v = v'.
Proof.
  intros H1 H2. destruct (H1 _ (ext0_ok st)) as (g1 & E1 & _). destruct (H2 _ (ext0_ok st)) as (g2 & E2 & _).
  rewrite E1 in E2. injection E2 as E2 _. apply decimal_inj_all, E2.
Qed.
Lemma reads_kx c e v st : kvalue moff zsz c e = Some v -> (forall x w, c x = Some w -> gv st (vn x) = Some w) -> reads (rv e false 0) st v.
Proof.
  intros K I g X. destruct (kvalue_exp c vn mn zn (nk_vi _ _ _ _ _ NK) N HN moff zsz NK e v g K) as (g1 & E & O).
  - intros x w Hx. apply X, I, Hx.
  - exists g1. split; [apply SE, E|exact O].
Qed.
Lemma reads_int v st : int_range v -> reads (rv (XInt v) false 0) st v.
Proof.
  intros Hv g X. exists g. split; [|auto]. apply SE. rewrite comp_rvalue_go_eq. unfold wrap_int. rewrite putint_decimal by exact Hv. apply exp_chs.
Qed.
Lemma reads_elem e st : ok_elem e = true -> reads (eword e) st (evalue e).
Proof.
  destruct e as [n|n|n|k]; cbn [ok_elem eword evalue]; intros Ok.
  - apply andb_true_iff in Ok as [O1 O2]. apply Z.leb_le in O1. apply Z.ltb_lt in O2.
    pose proof (reads_int n st) as R. rewrite comp_rvalue_go_eq in R. apply R. unfold int_range. lia.
  - assert (K : kvalue moff zsz (fun _ => None) (XHex n) = Some n).
    { unfold kvalue. rewrite okx_eq, cev_eq. cbn [kx]. rewrite Ok. reflexivity. }
    pose proof (reads_kx _ _ _ st K) as R. rewrite comp_rvalue_go_eq in R. apply R. discriminate.
  - assert (K : kvalue moff zsz (fun _ => None) (XOct n) = Some n).
    { unfold kvalue. rewrite okx_eq, cev_eq. cbn [kx]. rewrite Ok. reflexivity. }
    pose proof (reads_kx _ _ _ st K) as R. rewrite comp_rvalue_go_eq in R. apply R. discriminate.
  - apply andb_true_iff in Ok as [O1 O2]. apply Z.leb_le in O1. apply Z.ltb_lt in O2.
    pose proof (reads_int k st) as R. rewrite comp_rvalue_go_eq in R. apply R. unfold int_range. lia.
Qed.

(** ** The invariant *)
Definition block := (nat * Z * list Z * bool)%type.
Definition block_ok (st : gst) (b : block) : Prop :=
  let '(x, p, vals, i) := b in
  gv st (vn x) = Some p /\
  forall j, (j < length vals)%nat -> let o := gv st (cell (p + Z.of_nat j)) in
    if (i : bool) then o = Some (nth j vals 0) else o = None \/ o = Some 0.
Fixpoint chain (a : Z) (bl : list block) : Prop :=
  match bl with [] => 1 <= a | (x, p, vals, _) :: bl => p + Z.of_nat (length vals) <= a /\ (1 <= length vals)%nat /\ chain p bl end.
Record Inv (c : nat -> option Z) (dv en : list nat) (dm dt : list (nat * Z)) (bl : list block) (a : option Z) (st : gst) : Prop := {
  iv_c : forall x v, c x = Some v -> gv st (vn x) = Some v;
  iv_cd : forall x v, c x = Some v -> In x dv;
  iv_un : forall x, ~ In x dv -> gv st (vn x) = None;
  iv_a : match a with
         | Some a => gv st ALLOC = Some a /\ chain a bl /\ forall i, a <= i -> gv st (cell i) = None \/ gv st (cell i) = Some 0
         | None => bl = [] /\ forall i, gv st (cell i) = None
         end;
  iv_bl : Forall (block_ok st) bl;
  iv_bd : forall b, In b bl -> In (fst (fst (fst b))) dv;
  iv_m : forall k v, In (k, v) dm -> gv st (mn k) = Some v /\ gro st (mn k) = true;
  iv_t : forall k v, In (k, v) dt -> gv st (zn k) = Some v /\ gro st (zn k) = true;
  iv_e : forall x, In x en -> gro st (vn x) = true;
  iv_ed : forall x, In x en -> In x dv;
  iv_ro : forall n, gro st n = true -> (exists x, In x en /\ n = vn x) \/ (exists k v, In (k, v) dm /\ n = mn k) \/ (exists k v, In (k, v) dt /\ n = zn k) }.
Lemma chain_ge a bl : chain a bl -> 1 <= a.
Proof. revert a. induction bl as [|[[[x p] vals] i] bl IH]; intros a H; cbn [chain] in H; [exact H|]. destruct H as (H1 & H2 & H3). apply IH in H3. lia. Qed.
Lemma chain_in bl : forall a x p vals i, chain a bl -> In (x, p, vals, i) bl -> 1 <= p /\ p + Z.of_nat (length vals) <= a /\ (1 <= length vals)%nat.
Proof.
  induction bl as [|[[[y q] vals'] i'] bl IH]; intros a x p vals i H Hi; [destruct Hi|]. cbn [chain] in H. destruct H as (H1 & H2 & H3).
  destruct Hi as [E|Hi].
  - injection E as -> -> -> ->. pose proof (chain_ge _ _ H3). auto.
  - destruct (IH _ _ _ _ _ H3 Hi) as (A & B & C). split; [exact A|]. split; [lia|exact C].
Qed.
Lemma chain_mono bl : forall a b, a <= b -> chain a bl -> chain b bl.
Proof. destruct bl as [|[[[y q] vals'] i'] bl]; cbn [chain]; intros a b H C; [lia|]. destruct C as (H1 & H2 & H3). split; [lia|auto]. Qed.
Lemma block_frame st st' b : block_ok st b -> gv st' (vn (fst (fst (fst b)))) = gv st (vn (fst (fst (fst b)))) ->
  (forall j, (j < length (snd (fst b)))%nat -> gv st' (cell (snd (fst (fst b)) + Z.of_nat j)) = gv st (cell (snd (fst (fst b)) + Z.of_nat j))) -> block_ok st' b.
Proof.
  destruct b as [[[x p] vals] i]. cbn [fst snd block_ok]. intros [H1 H2] E1 E2. split; [congruence|]. intros j Hj. cbv zeta. rewrite (E2 j Hj). exact (H2 j Hj).
Qed.
(* scratch variables do not matter *)
Lemma inv_same c dv en dm dt bl a st st' : same st st' -> Inv c dv en dm dt bl a st -> Inv c dv en dm dt bl a st'.
Proof.
  intros (S1 & S2 & _) V.
  assert (Ev : forall x, gv st' (vn x) = gv st (vn x)) by (intros; apply S1; intros X; apply (gn_v _ _ _ GN x); right; exact X).
  assert (Em : forall x, gv st' (mn x) = gv st (mn x)) by (intros; apply S1; intros X; apply (gn_m _ _ _ GN x); right; exact X).
  assert (Ez : forall x, gv st' (zn x) = gv st (zn x)) by (intros; apply S1; intros X; apply (gn_z _ _ _ GN x); right; exact X).
  assert (Ec : forall x, gv st' (cell x) = gv st (cell x)) by (intros; apply S1; intros X; apply (cell_other x); right; exact X).
  assert (Ea : gv st' ALLOC = gv st ALLOC) by (apply S1, alloc_scratch).
  destruct V. constructor; auto.
  - intros x v Hx. rewrite Ev. auto.
  - intros x Hx. rewrite Ev. auto.
  - destruct a as [a|].
    + destruct iv_a0 as (A1 & A2 & A3). rewrite Ea. split; [exact A1|]. split; [exact A2|]. intros i Hi. rewrite Ec. auto.
    + destruct iv_a0 as (A1 & A3). split; [exact A1|]. intros i. rewrite Ec. auto.
  - rewrite Forall_forall in *. intros b Hb. apply (block_frame st); auto.
  - intros k v Hk. rewrite Em, S2. auto.
  - intros k v Hk. rewrite Ez, S2. auto.
  - intros x Hx. rewrite S2. auto.
  - intros n Hn. rewrite S2 in Hn. auto.
Qed.
(* a new variable *)
Lemma inv_var c dv en dm dt bl a st x v : Inv c dv en dm dt bl a st -> ~ In x dv -> Inv (kset x v c) (x :: dv) en dm dt bl a (setx (vn x) v st).
Proof.
  intros V Hx.
  assert (Ov : forall y, y <> x -> vn y <> vn x) by (intros y Hy E; apply Hy, (nk_vinj _ _ _ _ _ NK), E).
  destruct V. constructor; auto.
  - intros y w Hy. unfold kset in Hy. destruct (Nat.eqb y x) eqn:E.
    + apply Nat.eqb_eq in E as ->. injection Hy as ->. apply setx_eq.
    + apply Nat.eqb_neq in E. rewrite setx_ne by auto. auto.
  - intros y w Hy. unfold kset in Hy. destruct (Nat.eqb y x) eqn:E; [apply Nat.eqb_eq in E as ->; left; reflexivity|right; eauto].
  - intros y Hy. rewrite setx_ne; [apply iv_un0|apply Ov]; intros X; apply Hy; [right; exact X|left; auto].
  - destruct a as [a|].
    + destruct iv_a0 as (A1 & A2 & A3). rewrite setx_ne by (apply not_eq_sym, v_alloc). split; [exact A1|]. split; [exact A2|].
      intros i Hi. rewrite setx_ne by (apply not_eq_sym, v_cell). auto.
    + destruct iv_a0 as (A1 & A3). split; [exact A1|]. intros i. rewrite setx_ne by (apply not_eq_sym, v_cell). auto.
  - rewrite Forall_forall in *. intros b Hb. apply (block_frame st); auto.
    + apply setx_ne, Ov. intros <-. apply Hx, iv_bd0, Hb.
    + intros j _. apply setx_ne, not_eq_sym, v_cell.
  - intros b Hb. right. auto.
  - intros k w Hk. rewrite setx_ne by (apply not_eq_sym, vm). cbn [setx gro]. auto.
  - intros k w Hk. rewrite setx_ne by (apply not_eq_sym, vz). cbn [setx gro]. auto.
  - intros y Hy. right. auto.
Qed.
Lemma inv_enum c dv en dm dt bl a st x v : Inv c dv en dm dt bl a st -> ~ In x dv -> Inv (kset x v c) (x :: dv) (x :: en) dm dt bl a (setro (vn x) (setx (vn x) v st)).
Proof.
  intros V Hx. pose proof (inv_var c dv en dm dt bl a st x v V Hx) as W. destruct W. constructor; auto.
  - intros k w Hk. rewrite setro_ne by (apply not_eq_sym, vm). exact (iv_m0 k w Hk).
  - intros k w Hk. rewrite setro_ne by (apply not_eq_sym, vz). exact (iv_t0 k w Hk).
  - intros y [->|Hy]; [apply setro_eq|]. destruct (list_eq_dec Z.eq_dec (vn y) (vn x)) as [E|E]; [rewrite E; apply setro_eq|rewrite setro_ne by exact E; auto].
  - intros y [->|Hy]; [left; reflexivity|auto].
  - intros n Hn. destruct (list_eq_dec Z.eq_dec n (vn x)) as [E|E]; [left; exists x; split; [left; reflexivity|exact E]|].
    rewrite setro_ne in Hn by exact E. destruct (iv_ro0 n Hn) as [(y & Hy & En)|X]; [left; exists y; split; [right; exact Hy|exact En]|auto].
Qed.
Lemma inv_mem c dv en dm dt bl a st k v : Inv c dv en dm dt bl a st -> (forall w, ~ In (k, w) dm) -> Inv c dv en ((k, v) :: dm) dt bl a (setro (mn k) (setx (mn k) v st)).
Proof.
  intros V Hx. destruct V. constructor; auto; cbn [setro gv].
  - intros y w Hy. rewrite setx_ne by apply vm. auto.
  - intros y Hy. rewrite setx_ne by apply vm. auto.
  - destruct a as [a|].
    + destruct iv_a0 as (A1 & A2 & A3). rewrite setx_ne by (apply not_eq_sym, m_alloc). split; [exact A1|]. split; [exact A2|].
      intros i Hi. rewrite setx_ne by (apply not_eq_sym, m_cell). auto.
    + destruct iv_a0 as (A1 & A3). split; [exact A1|]. intros i. rewrite setx_ne by (apply not_eq_sym, m_cell). auto.
  - rewrite Forall_forall in *. intros b Hb. apply (block_frame st); auto; cbn [setro gv].
    + apply setx_ne, vm.
    + intros j _. apply setx_ne, not_eq_sym, m_cell.
  - intros j w [E|Hj].
    + injection E as -> ->. rewrite setx_eq, setro_eq. auto.
    + assert (Q : mn j <> mn k). { intros E. apply (gn_minj _ _ _ GN) in E. subst. exact (Hx _ Hj). }
      rewrite setx_ne, setro_ne by exact Q. cbn [setx gro]. auto.
  - intros j w Hj. rewrite setx_ne, setro_ne by (apply not_eq_sym, (gn_mz _ _ _ GN)). cbn [setx gro]. auto.
  - intros y Hy. rewrite setro_ne by apply vm. cbn [setx gro]. auto.
  - intros n Hn. destruct (list_eq_dec Z.eq_dec n (mn k)) as [E|E]; [right; left; exists k, v; split; [left; reflexivity|exact E]|].
    rewrite setro_ne in Hn by exact E. destruct (iv_ro0 n Hn) as [X|[(j & w & Hj & En)|X]]; [auto| |auto]. right. left. exists j, w. split; [right; exact Hj|exact En].
Qed.
Lemma inv_tag c dv en dm dt bl a st k v : Inv c dv en dm dt bl a st -> (forall w, ~ In (k, w) dt) -> Inv c dv en dm ((k, v) :: dt) bl a (setro (zn k) (setx (zn k) v st)).
Proof.
  intros V Hx. destruct V. constructor; auto; cbn [setro gv].
  - intros y w Hy. rewrite setx_ne by apply vz. auto.
  - intros y Hy. rewrite setx_ne by apply vz. auto.
  - destruct a as [a|].
    + destruct iv_a0 as (A1 & A2 & A3). rewrite setx_ne by (apply not_eq_sym, z_alloc). split; [exact A1|]. split; [exact A2|].
      intros i Hi. rewrite setx_ne by (apply not_eq_sym, z_cell). auto.
    + destruct iv_a0 as (A1 & A3). split; [exact A1|]. intros i. rewrite setx_ne by (apply not_eq_sym, z_cell). auto.
  - rewrite Forall_forall in *. intros b Hb. apply (block_frame st); auto; cbn [setro gv].
    + apply setx_ne, vz.
    + intros j _. apply setx_ne, not_eq_sym, z_cell.
  - intros j w Hj. rewrite setx_ne, setro_ne by apply (gn_mz _ _ _ GN). cbn [setx gro]. auto.
  - intros j w [E|Hj].
    + injection E as -> ->. rewrite setx_eq, setro_eq. auto.
    + assert (Q : zn j <> zn k). { intros E. apply (gn_zinj _ _ _ GN) in E. subst. exact (Hx _ Hj). }
      rewrite setx_ne, setro_ne by exact Q. cbn [setx gro]. auto.
  - intros y Hy. rewrite setro_ne by apply vz. cbn [setx gro]. auto.
  - intros n Hn. destruct (list_eq_dec Z.eq_dec n (zn k)) as [E|E]; [right; right; exists k, v; split; [left; reflexivity|exact E]|].
    rewrite setro_ne in Hn by exact E. destruct (iv_ro0 n Hn) as [X|[X|(j & w & Hj & En)]]; [auto|auto|]. right. right. exists j, w. split; [right; exact Hj|exact En].
Qed.
(* __ALLOC=1 *)
Lemma inv_first c dv en dm dt st : Inv c dv en dm dt [] None st -> Inv c dv en dm dt [] (Some 1) (setx ALLOC 1 st).
Proof.
  intros V. destruct V. constructor; auto.
  - intros y w Hy. rewrite setx_ne by apply v_alloc. auto.
  - intros y Hy. rewrite setx_ne by apply v_alloc. auto.
  - rewrite setx_eq. split; [reflexivity|]. split; [cbn; lia|]. intros i Hi. rewrite setx_ne by apply c_alloc. left. apply iv_a0.
  - intros j w Hj. rewrite setx_ne by apply m_alloc. cbn [setx gro]. auto.
  - intros j w Hj. rewrite setx_ne by apply z_alloc. cbn [setx gro]. auto.
Qed.
(* a new object *)
Lemma inv_alloc c dv en dm dt bl a st st' x vals i :
  Inv c dv en dm dt bl (Some a) st -> ~ In x dv -> (1 <= length vals)%nat ->
  gv st' (vn x) = Some (base a) -> gv st' ALLOC = Some (base a + Z.of_nat (length vals)) ->
  (forall n, n <> vn x -> n <> ALLOC -> (forall i, a <= i -> n <> cell i) -> gv st' n = gv st n) ->
  (forall j, (j < length vals)%nat -> let o := gv st' (cell (base a + Z.of_nat j)) in if (i : bool) then o = Some (nth j vals 0) else o = None \/ o = Some 0) ->
  (forall i, base a + Z.of_nat (length vals) <= i -> gv st' (cell i) = None \/ gv st' (cell i) = Some 0) ->
  (forall n, gro st' n = gro st n) ->
  Inv c (x :: dv) en dm dt ((x, base a, vals, i) :: bl) (Some (base a + Z.of_nat (length vals))) st'.
Proof.
  intros V Hx Hl Ex Ea Eo Eb Ec Er.
  assert (Ov : forall y, y <> x -> vn y <> vn x) by (intros y Hy E; apply Hy, (nk_vinj _ _ _ _ _ NK), E).
  assert (Ev : forall y, y <> x -> gv st' (vn y) = gv st (vn y)).
  { intros y Hy. apply Eo; [apply Ov, Hy|apply v_alloc|]. intros j _. apply v_cell. }
  assert (Hb : a <= base a) by (unfold ShGlobal.base; destruct tag; lia).
  destruct V. destruct iv_a0 as (A1 & A2 & A3). constructor; auto.
  - intros y w Hy. rewrite Ev; [auto|]. intros ->. eauto.
  - intros y w Hy. right. eauto.
  - intros y Hy. rewrite Ev; [apply iv_un0|]; intros X; apply Hy; [right; exact X|left; auto].
  - split; [exact Ea|]. split; [|exact Ec]. cbn [chain]. split; [lia|]. split; [exact Hl|]. exact (chain_mono _ _ _ Hb A2).
  - constructor; [split; [exact Ex|exact Eb]|]. rewrite Forall_forall in *. intros b Hi. apply (block_frame st); auto.
    + apply Ev. intros E. rewrite <- E in Hx. apply Hx, iv_bd0, Hi.
    + intros j Hj. destruct b as [[[y p] vs] z]. cbn [fst snd] in *. destruct (chain_in _ _ _ _ _ _ A2 Hi) as (P1 & P2 & P3).
      apply Eo; [apply not_eq_sym, v_cell|apply c_alloc|]. intros m Hm E. apply cell_inj in E. lia.
  - intros b [<-|Hi]; [left; reflexivity|right; auto].
  - intros j w Hj. rewrite Er, Eo; [auto|apply not_eq_sym, vm|apply m_alloc|intros; apply m_cell].
  - intros j w Hj. rewrite Er, Eo; [auto|apply not_eq_sym, vz|apply z_alloc|intros; apply z_cell].
  - intros y Hy. rewrite Er. auto.
  - intros y Hy. right. auto.
  - intros n Hn. rewrite Er in Hn. auto.
Qed.
Lemma inv_writable c dv en dm dt bl a st x : Inv c dv en dm dt bl a st -> ~ In x dv -> writable (vn x) st.
Proof.
  intros V Hx. assert (Q : forall n, (forall y, In y en -> n <> vn y) -> (forall k, n <> mn k) -> (forall k, n <> zn k) -> gro st n = false).
  { intros n Q1 Q2 Q3. destruct (gro st n) eqn:E; [exfalso|reflexivity]. destruct (iv_ro _ _ _ _ _ _ _ _ V n E) as [(y & Hy & ->)|[(k & w & _ & ->)|(k & w & _ & ->)]].
    - exact (Q1 y Hy eq_refl).
    - exact (Q2 k eq_refl).
    - exact (Q3 k eq_refl). }
  split; [|split].
  - apply Q; [|apply vm|apply vz]. intros y Hy E. apply (nk_vinj _ _ _ _ _ NK) in E. subst. apply Hx, (iv_ed _ _ _ _ _ _ _ _ V), Hy.
  - apply Q; [intros; apply not_eq_sym, v_alloc|intros; apply not_eq_sym, m_alloc|intros; apply not_eq_sym, z_alloc].
  - intros i. apply Q; [intros; apply not_eq_sym, v_cell|intros; apply not_eq_sym, m_cell|intros; apply not_eq_sym, z_cell].
Qed.

(** ** Memory operations *)
Lemma put_out n vs : forall p st, (forall j, (j < length vs)%nat -> n <> cell (p + Z.of_nat j)) -> gv (put_list p vs st) n = gv st n.
Proof.
  induction vs as [|v vs IH]; intros p st H; cbn [put_list]; [reflexivity|]. rewrite IH.
  - apply setx_ne. specialize (H O). rewrite Z.add_0_r in H. apply H. cbn; lia.
  - intros j Hj. specialize (H (S j)). replace (p + 1 + Z.of_nat j) with (p + Z.of_nat (S j)) by lia. apply H. cbn; lia.
Qed.
Lemma put_in vs : forall p st j, (j < length vs)%nat -> gv (put_list p vs st) (cell (p + Z.of_nat j)) = Some (nth j vs 0).
Proof.
  induction vs as [|v vs IH]; intros p st j H; cbn [length] in H; [lia|]. cbn [put_list]. destruct j as [|j].
  - rewrite put_out.
    + rewrite Z.add_0_r, setx_eq. reflexivity.
    + intros j Hj E. apply cell_inj in E. lia.
  - replace (p + Z.of_nat (S j)) with (p + 1 + Z.of_nat j) by lia. rewrite IH by lia. reflexivity.
Qed.
Lemma put_ro vs : forall p st, (forall n, gro (put_list p vs st) n = gro st n) /\ garr (put_list p vs st) = garr st.
Proof.
  induction vs as [|v vs IH]; intros p st; cbn [put_list]; [auto|]. destruct (IH (p + 1) (setx (cell p) v st)) as [A B]. split; [intros n; rewrite A; reflexivity|rewrite B; reflexivity].
Qed.
Lemma malloc_alloc x size a st : gv (do_malloc tag x size a st) ALLOC = Some (base a + size).
Proof. unfold do_malloc, ShGlobal.base. destruct tag; rewrite setx_eq; f_equal; lia. Qed.
Lemma malloc_var x size a st : x <> ALLOC -> gv (do_malloc tag x size a st) x = Some (base a).
Proof. intros H. unfold do_malloc, ShGlobal.base. destruct tag; rewrite setx_ne by exact H; apply setx_eq. Qed.
Lemma malloc_other x size a st n : n <> x -> n <> ALLOC -> n <> cell a -> gv (do_malloc tag x size a st) n = gv st n.
Proof. intros H1 H2 H3. unfold do_malloc. destruct tag; rewrite !setx_ne by assumption; reflexivity. Qed.
Lemma malloc_cell x size a st i : (forall i, x <> cell i) -> base a <= i -> gv (do_malloc tag x size a st) (cell i) = gv st (cell i).
Proof.
  intros H1 H. unfold do_malloc. unfold ShGlobal.base in H. destruct tag; rewrite !setx_ne; auto using c_alloc.
  intros E. apply cell_inj in E. lia.
Qed.
Lemma malloc_ro x size a st : (forall n, gro (do_malloc tag x size a st) n = gro st n) /\ garr (do_malloc tag x size a st) = garr st.
Proof. unfold do_malloc. destruct tag; auto. Qed.
End G.
