(** * Global declarations: one declaration after the other *)
From Coq Require Import ZArith List Lia Bool.
From Verif Require Import Base Numerals Output Ast Parse ShArith ShExpr ShCSem ShEqs ShFacts ShFacts2 ShSyn ShSem ShMain ShMain2 ShMain3 ShMain6 PropShArith ShGlobal ShGlobal1 ShGlobal2 ShGlobal3.
Import ListNotations.
Open Scope Z_scope.
Local Notation length := List.length.

Section G.
Variable N : Z.
Hypothesis HN : 32 <= N.
Variables (vn mn zn : nat -> name) (moff zsz : nat -> Z).
Hypothesis NK : names_ok vn mn zn moff zsz.
Hypothesis GN : gnames vn mn zn.
Variable sev : list item -> vars -> option (list Z * vars).
Hypothesis SE : forall t g l g1, exp N t g l g1 -> sev t g = Some (l, g1).
Variable tag : bool.
Notation rv := (comp_rvalue_go vn mn zn).
Notation reads := (reads sev). Notation gstep := (gstep sev tag). Notation grun := (grun sev tag).
Notation base := (base tag). Notation Inv := (Inv vn mn zn).
Notation step_ok := (step_ok sev tag). Notation run_ok := (run_ok sev tag).

Definition strip (b : block) : nat * list Z * bool := let '(x, _, vals, i) := b in (x, vals, i).
Definition some {A} (o : option A) : bool := match o with Some _ => true | None => false end.
(* what is known after some declarations *)
Definition Kn (c : nat -> option Z) (dv en : list nat) (dm dt : list (nat * Z)) (ar : list (nat * list Z * bool)) (m : bool) (ga : option arrdef) (st : gst) : Prop :=
  exists bl a, map strip bl = ar /\ some a = m /\ garr st = ga /\ Inv c dv en dm dt bl a st.

Lemma kn_var c dv en dm dt ar m ga x e v : kvalue moff zsz c e = Some v -> ~ In x dv ->
  step_ok (CSet (vn x) (rv e false 0)) (Kn c dv en dm dt ar m ga) (Kn (kset x v c) (x :: dv) en dm dt ar m ga).
Proof.
  intros K Hx st (bl & a & E1 & E2 & E3 & V).
  pose proof (reads_kx N HN vn mn zn moff zsz NK sev SE c e v st K (iv_c _ _ _ _ _ _ _ _ _ _ _ V)) as R.
  destruct (inv_writable vn mn zn moff zsz NK GN _ _ _ _ _ _ _ _ x V Hx) as [W _]. split.
  - eexists. constructor; eauto.
  - intros st' X. inversion X as [x0 w0 v0 st0 W0 R0| | | | | |]; subst. rewrite <- (reads_fun sev _ _ _ _ R R0).
    exists bl, a. split; [reflexivity|]. split; [reflexivity|]. split; [reflexivity|]. apply (inv_var vn mn zn moff zsz NK GN); auto.
Qed.
Lemma kn_enum c dv en dm dt ar m ga x v : int_range v -> ~ In x dv ->
  step_ok (CRo (vn x) (rv (XInt v) false 0)) (Kn c dv en dm dt ar m ga) (Kn (kset x v c) (x :: dv) (x :: en) dm dt ar m ga).
Proof.
  intros K Hx st (bl & a & E1 & E2 & E3 & V).
  pose proof (reads_int N vn mn zn sev SE v st K) as R.
  destruct (inv_writable vn mn zn moff zsz NK GN _ _ _ _ _ _ _ _ x V Hx) as [W _]. split.
  - eexists. constructor; eauto.
  - intros st' X. inversion X as [|x0 w0 v0 st0 W0 R0| | | | |]; subst. rewrite <- (reads_fun sev _ _ _ _ R R0).
    exists bl, a. split; [reflexivity|]. split; [reflexivity|]. split; [reflexivity|]. apply (inv_enum vn mn zn moff zsz NK GN); auto.
Qed.
Lemma inv_wm c dv en dm dt bl a st k : Inv c dv en dm dt bl a st -> (forall w, ~ In (k, w) dm) -> gro st (mn k) = false.
Proof.
  intros V Hk. destruct (gro st (mn k)) eqn:E; [exfalso|reflexivity]. destruct (iv_ro _ _ _ _ _ _ _ _ _ _ _ V _ E) as [(y & Hy & X)|[(j & w & Hj & X)|(j & w & Hj & X)]].
  - symmetry in X. exact (vm vn mn zn moff zsz NK _ _ X).
  - apply (gn_minj _ _ _ GN) in X. subst. exact (Hk _ Hj).
  - exact (gn_mz _ _ _ GN _ _ X).
Qed.
Lemma inv_wz c dv en dm dt bl a st k : Inv c dv en dm dt bl a st -> (forall w, ~ In (k, w) dt) -> gro st (zn k) = false.
Proof.
  intros V Hk. destruct (gro st (zn k)) eqn:E; [exfalso|reflexivity]. destruct (iv_ro _ _ _ _ _ _ _ _ _ _ _ V _ E) as [(y & Hy & X)|[(j & w & Hj & X)|(j & w & Hj & X)]].
  - symmetry in X. exact (vz vn mn zn moff zsz NK _ _ X).
  - symmetry in X. exact (gn_mz _ _ _ GN _ _ X).
  - apply (gn_zinj _ _ _ GN) in X. subst. exact (Hk _ Hj).
Qed.
Lemma kn_mem c dv en dm dt ar m ga k v : int_range v -> (forall w, ~ In (k, w) dm) ->
  step_ok (CRo (mn k) (rv (XInt v) false 0)) (Kn c dv en dm dt ar m ga) (Kn c dv en ((k, v) :: dm) dt ar m ga).
Proof.
  intros K Hx st (bl & a & E1 & E2 & E3 & V).
  pose proof (reads_int N vn mn zn sev SE v st K) as R. pose proof (inv_wm _ _ _ _ _ _ _ _ k V Hx) as W. split.
  - eexists. constructor; eauto.
  - intros st' X. inversion X as [|x0 w0 v0 st0 W0 R0| | | | |]; subst. rewrite <- (reads_fun sev _ _ _ _ R R0).
    exists bl, a. split; [reflexivity|]. split; [reflexivity|]. split; [reflexivity|]. apply (inv_mem vn mn zn moff zsz NK GN); auto.
Qed.
Lemma kn_tag c dv en dm dt ar m ga k v : int_range v -> (forall w, ~ In (k, w) dt) ->
  step_ok (CRo (zn k) (rv (XInt v) false 0)) (Kn c dv en dm dt ar m ga) (Kn c dv en dm ((k, v) :: dt) ar m ga).
Proof.
  intros K Hx st (bl & a & E1 & E2 & E3 & V).
  pose proof (reads_int N vn mn zn sev SE v st K) as R. pose proof (inv_wz _ _ _ _ _ _ _ _ k V Hx) as W. split.
  - eexists. constructor; eauto.
  - intros st' X. inversion X as [|x0 w0 v0 st0 W0 R0| | | | |]; subst. rewrite <- (reads_fun sev _ _ _ _ R R0).
    exists bl, a. split; [reflexivity|]. split; [reflexivity|]. split; [reflexivity|]. apply (inv_tag vn mn zn moff zsz NK GN); auto.
Qed.
Lemma kn_malloc c dv en dm dt ar ga : step_ok CMalloc (Kn c dv en dm dt ar false ga) (Kn c dv en dm dt ar true ga).
Proof.
  intros st (bl & a & E1 & E2 & E3 & V). destruct a as [a|]; [discriminate|]. pose proof (iv_a _ _ _ _ _ _ _ _ _ _ _ V) as [-> A].
  assert (W : gro st ALLOC = false).
  { destruct (gro st ALLOC) eqn:E; [exfalso|reflexivity]. destruct (iv_ro _ _ _ _ _ _ _ _ _ _ _ V _ E) as [(y & Hy & X)|[(j & w & Hj & X)|(j & w & Hj & X)]]; symmetry in X.
    - exact (v_alloc vn mn zn GN _ X).
    - exact (m_alloc vn mn zn GN _ X).
    - exact (z_alloc vn mn zn GN _ X). }
  split; [eexists; constructor; exact W|].
  intros st' X. inversion X; subst. exists [], (Some 1). split; [reflexivity|]. split; [reflexivity|]. split; [reflexivity|].
  apply (inv_first vn mn zn GN); auto.
Qed.
Lemma kn_defarr c dv en dm dt ar m ga k : step_ok (CDefarr k) (Kn c dv en dm dt ar m ga) (Kn c dv en dm dt ar m (Some k)).
Proof.
  intros st (bl & a & E1 & E2 & E3 & V). split; [eexists; constructor|]. intros st' X. inversion X; subst. exists bl, a.
  split; [reflexivity|]. split; [reflexivity|]. split; [reflexivity|]. destruct V. constructor; auto.
Qed.
Lemma reads_list ws : forall vs st us, Forall2 (fun w v => reads w st v) ws vs -> Forall2 (fun w v => reads w st v) ws us -> us = vs.
Proof.
  induction ws as [|w ws IH]; intros vs st us H1 H2; inversion H1; subst; inversion H2; subst; [reflexivity|]. f_equal; [eapply reads_fun; eauto|eauto].
Qed.
Lemma nth_zeros k j : nth j (zeros k) 0 = 0.
Proof. unfold zeros. apply nth_repeat. Qed.
Lemma zeros_len k : length (zeros k) = Z.to_nat k.
Proof. apply repeat_length. Qed.
(* the memory of an object after _malloc and initialize *)
Lemma kn_plain c dv en dm dt bl a st st' x len : Inv c dv en dm dt bl (Some a) st -> ~ In x dv -> 1 <= len ->
  same (do_malloc tag (vn x) len a st) st' ->
  Inv c (x :: dv) en dm dt ((x, base a, zeros len, false) :: bl) (Some (base a + len)) st'.
Proof.
  intros V Hx Hl Sm. apply (inv_same vn mn zn GN _ _ _ _ _ _ _ _ _ Sm).
  pose proof (iv_a _ _ _ _ _ _ _ _ _ _ _ V) as (A1 & A2 & A3).
  assert (Hb : a <= base a) by (unfold ShGlobal.base; destruct tag; lia).
  assert (L : Z.of_nat (length (zeros len)) = len) by (rewrite zeros_len; lia).
  replace (Some (base a + len)) with (Some (base a + Z.of_nat (length (zeros len)))) by (rewrite L; reflexivity). apply (inv_alloc vn mn zn moff zsz NK GN tag c dv en dm dt bl a st); auto.
  - lia.
  - apply malloc_var, (v_alloc vn mn zn GN).
  - rewrite L. apply malloc_alloc.
  - intros n H1 H2 H3. apply malloc_other; auto. apply H3. lia.
  - intros j Hj. cbv zeta. rewrite malloc_cell by (try apply (v_cell vn mn zn moff zsz NK); lia). apply A3. lia.
  - intros i Hi. rewrite malloc_cell by (try apply (v_cell vn mn zn moff zsz NK); lia). apply A3. lia.
  - apply malloc_ro.
Qed.
Lemma kn_init c dv en dm dt bl a st st' x len vals more : Inv c dv en dm dt bl (Some a) st -> ~ In x dv -> 1 <= len -> Z.of_nat (length vals) = len ->
  Forall (fun v => v = 0) more -> same (setx (vn x) (base a) (put_list (base a) (vals ++ more) (do_malloc tag (vn x) len a st))) st' ->
  Inv c (x :: dv) en dm dt ((x, base a, vals, true) :: bl) (Some (base a + len)) st'.
Proof.
  intros V Hx Hl L Hm Sm. apply (inv_same vn mn zn GN _ _ _ _ _ _ _ _ _ Sm).
  pose proof (iv_a _ _ _ _ _ _ _ _ _ _ _ V) as (A1 & A2 & A3).
  assert (Hb : a <= base a) by (unfold ShGlobal.base; destruct tag; lia).
  assert (VC := v_cell vn mn zn moff zsz NK).
  replace (Some (base a + len)) with (Some (base a + Z.of_nat (length vals))) by (rewrite L; reflexivity). apply (inv_alloc vn mn zn moff zsz NK GN tag c dv en dm dt bl a st); auto.
  - lia.
  - apply setx_eq.
  - rewrite setx_ne by (apply not_eq_sym, (v_alloc vn mn zn GN)). rewrite put_out by (intros; apply not_eq_sym, c_alloc). rewrite L. apply malloc_alloc.
  - intros n H1 H2 H3. rewrite setx_ne by exact H1. rewrite put_out by (intros j _; apply H3; lia). apply malloc_other; auto. apply H3. lia.
  - intros j Hj. cbv zeta. rewrite setx_ne by (apply not_eq_sym, VC). rewrite put_in by (rewrite app_length; lia). rewrite app_nth1 by exact Hj. reflexivity.
  - intros i Hi. rewrite setx_ne by (apply not_eq_sym, VC).
    destruct (Z_lt_ge_dec i (base a + Z.of_nat (length (vals ++ more)))) as [B|B].
    + replace i with (base a + Z.of_nat (Z.to_nat (i - base a))) by lia. rewrite put_in by lia. right. f_equal.
      rewrite app_nth2 by lia. rewrite Forall_forall in Hm.
      destruct (nth_in_or_default (Z.to_nat (i - base a) - length vals) more 0) as [Q|Q]; [exact (Hm _ Q)|exact Q].
    + rewrite put_out by (intros j Hj E; apply cell_inj in E; lia). rewrite malloc_cell by (try apply VC; lia). apply A3. lia.
  - intros n. cbn [setx gro]. rewrite (proj1 (put_ro _ _ _)). apply malloc_ro.
Qed.
Lemma same_refl st : same st st. Proof. split; [auto|]. split; auto. Qed.
(* int x[len]; *)
Lemma kn_arr0 c dv en dm dt ar k x len : ~ In x dv -> 1 <= len -> k = Plain \/ k = WithInit ->
  step_ok (CArr (vn x) len []) (Kn c dv en dm dt ar true (Some k)) (Kn c (x :: dv) en dm dt ((x, zeros len, false) :: ar) true (Some k)).
Proof.
  intros Hx Hl Hk st (bl & a & E1 & E2 & E3 & V). destruct a as [a|]; [|discriminate]. pose proof (iv_a _ _ _ _ _ _ _ _ _ _ _ V) as (A1 & A2 & A3).
  assert (Gk : garr st = Some Plain \/ garr st = Some WithInit) by (rewrite E3; destruct Hk as [->| ->]; auto).
  split.
  - exists (do_malloc tag (vn x) len a st). apply (g_arr sev tag (vn x) len [] [] a); auto.
    + apply (inv_writable vn mn zn moff zsz NK GN _ _ _ _ _ _ _ _ x V Hx).
    + destruct Gk as [-> | ->]; apply same_refl.
  - intros st' X. inversion X as [| | | |x0 len0 ws vs a' st0 st1 G0 W0 A0 R0 S0| |]; subst. inversion R0; subst.
    rewrite A1 in A0. injection A0 as <-.
    assert (S1 : same (do_malloc tag (vn x) len a st) st') by (destruct Gk as [Gk|Gk]; rewrite Gk in S0; exact S0).
    exists ((x, base a, zeros len, false) :: bl), (Some (base a + len)). split; [reflexivity|]. split; [reflexivity|]. split.
    + destruct S1 as (_ & _ & ->). rewrite (proj2 (malloc_ro _ _ _ _ _)). exact E3.
    + eapply kn_plain; eauto.
Qed.
(* int x[len] = { els }; *)
Lemma kn_arr c dv en dm dt ar x len els : ~ In x dv -> 1 <= len -> els <> [] -> Forall (fun e => ok_elem e = true) els -> Z.of_nat (length els) <= len ->
  step_ok (CArr (vn x) len (map eword els)) (Kn c dv en dm dt ar true (Some WithInit))
    (Kn c (x :: dv) en dm dt ((x, map evalue els ++ zeros (len - Z.of_nat (length els)), true) :: ar) true (Some WithInit)).
Proof.
  intros Hx Hl Hn Ok Le st (bl & a & E1 & E2 & E3 & V). destruct a as [a|]; [|discriminate]. pose proof (iv_a _ _ _ _ _ _ _ _ _ _ _ V) as (A1 & A2 & A3).
  assert (R : Forall2 (fun w v => reads w st v) (map eword els) (map evalue els)).
  { clear - Ok SE NK HN. induction Ok as [|e els He _ IH]; cbn [map]; constructor; [|exact IH]. apply (reads_elem N HN vn mn zn moff zsz NK sev SE), He. }
  set (vals := map evalue els ++ zeros (len - Z.of_nat (length els))).
  assert (LV : Z.of_nat (length vals) = len). { unfold vals. rewrite app_length, map_length, zeros_len. lia. }
  assert (Nv : map evalue els <> []) by (destruct els; [congruence|discriminate]).
  assert (Dm : forall st', same (match map evalue els with [] => do_malloc tag (vn x) len a st | _ => do_init (base a) len (map evalue els) (do_malloc tag (vn x) len a st) end) st' ->
     same (setx (vn x) (base a) (put_list (base a) (vals ++ []) (do_malloc tag (vn x) len a st))) st').
  { intros st' (S1 & S2 & S3). unfold do_init in *. rewrite map_length in *. rewrite app_nil_r.
    assert (Q : match map evalue els with [] => do_malloc tag (vn x) len a st | _ => put_list (base a) (map evalue els ++ zeros (len - Z.of_nat (length els))) (do_malloc tag (vn x) len a st) end = put_list (base a) vals (do_malloc tag (vn x) len a st)).
    { unfold vals. destruct (map evalue els); [congruence|reflexivity]. }
    rewrite Q in S1, S2, S3. split; [|split; [exact S2|exact S3]]. intros n Hs. rewrite S1 by exact Hs.
    destruct (list_eq_dec Z.eq_dec n (vn x)) as [->|D]; [|rewrite setx_ne by exact D; reflexivity]. rewrite setx_eq.
    rewrite put_out by (intros; apply (v_cell vn mn zn moff zsz NK)). apply malloc_var, (v_alloc vn mn zn GN). }
  split.
  - eexists. apply (g_arr sev tag (vn x) len (map eword els) (map evalue els) a); auto.
    + apply (inv_writable vn mn zn moff zsz NK GN _ _ _ _ _ _ _ _ x V Hx).
    + rewrite E3. apply same_refl.
  - intros st' X. inversion X as [| | | |x0 len0 ws vs a' st0 st1 G0 W0 A0 R0 S0| |]; subst x0 len0 ws st0 st1.
    rewrite A1 in A0. injection A0 as <-. rewrite (reads_list _ _ _ _ R R0), E3 in S0.
    exists ((x, base a, vals, true) :: bl), (Some (base a + len)). split; [cbn [map strip]; rewrite E1; reflexivity|]. split; [reflexivity|]. apply Dm in S0. split.
    + destruct S0 as (_ & _ & ->). cbn [setx garr]. rewrite (proj2 (put_ro _ _ _)), (proj2 (malloc_ro _ _ _ _ _)). exact E3.
    + eapply kn_init; eauto.
Qed.
(* char x[len] = "bytes"; *)
Lemma kn_str c dv en dm dt ar ga x size bytes : ~ In x dv -> Z.of_nat (length bytes) + 1 <= size ->
  step_ok (CStr (vn x) bytes size) (Kn c dv en dm dt ar true ga)
    (Kn c (x :: dv) en dm dt ((x, bytes ++ zeros (size - Z.of_nat (length bytes)), true) :: ar) true ga).
Proof.
  intros Hx Le st (bl & a & E1 & E2 & E3 & V). destruct a as [a|]; [|discriminate]. pose proof (iv_a _ _ _ _ _ _ _ _ _ _ _ V) as (A1 & A2 & A3).
  pose proof (iv_un _ _ _ _ _ _ _ _ _ _ _ V x Hx) as Un. split.
  - eexists. eapply (g_str sev tag (vn x) bytes size a); [left; exact Un| |exact A1|apply same_refl].
    apply (inv_writable vn mn zn moff zsz NK GN _ _ _ _ _ _ _ _ x V Hx).
  - intros st' X. inversion X as [| | | | |x0 b0 s0 a' st0 st1 U0 W0 A0 S0|x0 b0 s0 v0 st0 st1 U0 Nz S0]; subst; [|congruence].
    rewrite A1 in A0. injection A0 as <-. set (vals := bytes ++ zeros (size - Z.of_nat (length bytes))).
    assert (Ev : bytes ++ zeros (size - Z.of_nat (length bytes) + 1) = vals ++ [0]).
    { unfold vals. rewrite <- app_assoc. f_equal. unfold zeros. replace (Z.to_nat (size - Z.of_nat (length bytes) + 1)) with (Z.to_nat (size - Z.of_nat (length bytes)) + 1)%nat by lia.
      rewrite repeat_app. reflexivity. }
    rewrite Ev in S0.
    exists ((x, base a, vals, true) :: bl), (Some (base a + size)). split; [reflexivity|]. split; [reflexivity|]. split.
    + destruct S0 as (_ & _ & ->). cbn [setx garr]. rewrite (proj2 (put_ro _ _ _)), (proj2 (malloc_ro _ _ _ _ _)). reflexivity.
    + eapply kn_init; [exact V|exact Hx|lia| |repeat constructor|exact S0]. unfold vals. rewrite app_length, zeros_len. lia.
Qed.

(** ** One declaration *)
Definition cstep (d : gdecl) (c : nat -> option Z) : option (nat -> option Z) :=
  match d with
  | DVar x None => Some (kset x 0 c)
  | DVar x (Some e) => match kvalue moff zsz c e with Some v => Some (kset x v c) | None => None end
  | DEnum l => Some (fold_left (fun c '(x, v) => kset x v c) l c)
  | _ => Some c
  end.
Lemma consts_step d ds c : consts moff zsz (d :: ds) c = match cstep d c with Some c => consts moff zsz ds c | None => None end.
Proof. destruct d as [x [e|]| | | |]; try reflexivity. cbn [consts cstep]. destruct (kvalue moff zsz c e); reflexivity. Qed.
Fixpoint mvals (ms : list (nat * bool)) (off : Z) : list (nat * Z) :=
  match ms with [] => [] | (k, _) :: ms => (k, off) :: mvals ms (off + 1) end.
Definition dv_ (d : gdecl) (dv : list nat) := rev (dvars d) ++ dv.
Definition en_ (d : gdecl) (en : list nat) := match d with DEnum l => rev (map fst l) ++ en | _ => en end.
Definition dm_ (d : gdecl) (dm : list (nat * Z)) := match d with DStruct _ ms => rev (mvals ms 0) ++ dm | _ => dm end.
Definition dt_ (d : gdecl) (dt : list (nat * Z)) := match d with DStruct (Some t) ms => (t, Z.of_nat (length ms)) :: dt | _ => dt end.
Definition ar_ (d : gdecl) (ar : list (nat * list Z * bool)) := match array_of d with Some a => a :: ar | None => ar end.
Definition ga_ (d : gdecl) (ga : option arrdef) :=
  match d with DArr _ _ els => match ga with None => Some (match els with Some _ => WithInit | None => Plain end) | _ => ga end | _ => ga end.
Definition wf_cs (cs : cgst) (ga : option arrdef) : Prop :=
  carr cs = some ga /\ (carr cs = true -> cmal cs = true) /\ (ga = None -> cini cs = false) /\ ga <> Some Broken.
Lemma enum_run l : forall c dv en dm dt ar m ga, Forall (fun '(_, v) => int_range v) l -> (forall x, In x (map fst l) -> ~ In x dv) -> NoDup (map fst l) ->
  run_ok (map (fun '(x, v) => CRo (vn x) (rv (XInt v) false 0)) l) (Kn c dv en dm dt ar m ga)
    (Kn (fold_left (fun c '(x, v) => kset x v c) l c) (rev (map fst l) ++ dv) (rev (map fst l) ++ en) dm dt ar m ga).
Proof.
  induction l as [|[x v] l IH]; intros c dv en dm dt ar m ga Hr Hd Nd.
  - apply run_nil. auto.
  - cbn [map fst rev fold_left] in *. inversion Hr; subst. inversion Nd; subst. rewrite <- !app_assoc. cbn [app].
    eapply run_cons; [apply kn_enum; [assumption|apply Hd; left; reflexivity]|].
    apply IH; [assumption| |assumption]. intros y Hy [->|X]; [contradiction|]. exact (Hd y (or_intror Hy) X).
Qed.
Lemma mem_run ms : forall off code c dv en dm dt ar m ga, members vn mn zn ms off = Some code -> 0 <= off -> off + Z.of_nat (length ms) < 2 ^ 31 ->
  (forall k, In k (map fst ms) -> forall w, ~ In (k, w) dm) -> NoDup (map fst ms) ->
  run_ok code (Kn c dv en dm dt ar m ga) (Kn c dv en (rev (mvals ms off) ++ dm) dt ar m ga).
Proof.
  induction ms as [|[k n] ms IH]; intros off code c dv en dm dt ar m ga E Ho Hl Hd Nd; cbn [members] in E.
  - injection E as <-. apply run_nil. auto.
  - destruct n; [discriminate|]. destruct (members vn mn zn ms (off + 1)) as [l|] eqn:El; [|discriminate]. injection E as <-.
    cbn [map fst length mvals rev] in *. inversion Nd; subst. rewrite <- app_assoc. cbn [app].
    eapply run_cons; [apply kn_mem; [unfold int_range; lia|apply Hd; left; reflexivity]|].
    apply (IH (off + 1)); [exact El|lia|lia| |assumption]. intros j Hj w [X|X]; [injection X as -> _; contradiction|]. exact (Hd j (or_intror Hj) w X).
Qed.
Lemma malloc_run cs cs' k c dv en dm dt ar ga : need_malloc cs = (cs', k) ->
  run_ok k (Kn c dv en dm dt ar (cmal cs) ga) (Kn c dv en dm dt ar true ga) /\ cs' = CG true (carr cs) (cini cs).
Proof.
  unfold need_malloc. destruct cs as [ml ca ci]. cbn [cmal carr cini]. destruct ml; intros E; injection E as <- <-; (split; [|reflexivity]).
  - apply run_nil. auto.
  - apply run_one, kn_malloc.
Qed.
Lemma defarr_run cs cs' k c dv en dm dt ar ga : wf_cs cs ga \/ (ga = None /\ carr cs = false) -> need_defarr true cs = (cs', k) ->
  run_ok k (Kn c dv en dm dt ar (cmal cs) ga) (Kn c dv en dm dt ar true (match ga with None => Some (if cini cs then WithInit else Plain) | _ => ga end)) /\
  cs' = CG true true (cini cs).
Proof.
  intros Wf. unfold need_defarr. destruct (carr cs) eqn:Ec.
  - intros E. injection E as <- <-. destruct Wf as [(W1 & W2 & W3 & W4)|[-> W]]; [|congruence]. destruct ga as [g|]; [|cbn in W1; congruence].
    specialize (W2 Ec). rewrite W2. split; [apply run_nil; auto|]. destruct cs as [ml ca ci]. cbn in *. subst. reflexivity.
  - destruct (need_malloc cs) as [c1 k1] eqn:Em. intros E. injection E as <- <-.
    destruct (malloc_run _ _ _ c dv en dm dt ar ga Em) as [R ->]. cbn [cmal cini]. split; [|reflexivity].
    assert (Gn : ga = None). { destruct Wf as [(W1 & _)|[-> W]]; [|reflexivity]. destruct ga; [cbn in W1; congruence|reflexivity]. } subst ga.
    eapply run_app; [exact R|]. apply run_one, kn_defarr.
Qed.
Lemma decl_run d cs cs' k c c' dv en dm dt ar ga :
  glo_decl true vn mn zn d cs = Some (cs', k) -> cstep d c = Some c' -> ok_decl d -> wf_cs cs ga ->
  (forall x, In x (dvars d) -> ~ In x dv) -> NoDup (dvars d) -> (forall j, In j (dmembers d) -> forall w, ~ In (j, w) dm) -> NoDup (dmembers d) ->
  (forall j, In j (dtags d) -> forall w, ~ In (j, w) dt) ->
  (match d with DArr _ _ (Some _) => ga_ d ga = Some WithInit | _ => True end) ->
  run_ok k (Kn c dv en dm dt ar (cmal cs) ga) (Kn c' (dv_ d dv) (en_ d en) (dm_ d dm) (dt_ d dt) (ar_ d ar) (cmal cs') (ga_ d ga)) /\ wf_cs cs' (ga_ d ga).
Proof.
  intros E Ec Ok Wf Hv Nv Hm Nm Ht Li. destruct d as [x i|x len els|x len bytes|l|t ms]; cbn [glo_decl] in E.
  - injection E as <- <-. cbn [dv_ en_ dm_ dt_ ar_ ga_ array_of dvars rev app]. split; [|exact Wf]. apply run_one.
    assert (Kv : exists v, kvalue moff zsz c (match i with Some e => e | None => XInt 0 end) = Some v /\ c' = kset x v c).
    { destruct i as [e|]; cbn [cstep] in Ec; [destruct (kvalue moff zsz c e) as [v|]; [|discriminate]|]; injection Ec as <-; [eauto|]. exists 0. split; reflexivity. }
    destruct Kv as (v & Kv & ->). apply kn_var; [exact Kv|]. apply Hv. left. reflexivity.
  - cbn [cstep] in Ec. injection Ec as <-. cbn [ok_decl] in Ok. destruct Ok as [Ol Oe].
    assert (Hx : ~ In x dv) by (apply Hv; left; reflexivity).
    remember (match els with Some _ => CG (cmal cs) (carr cs) true | None => cs end) as cs1 eqn:Ecs.
    cbv zeta in E. match type of E with (if ?b then _ else _) = _ => destruct b eqn:B; [discriminate|] end.
    destruct (need_defarr true cs1) as [c2 k2] eqn:D. injection E as <- <-.
    apply orb_false_iff in B as [B1 B2]. apply Z.eqb_neq in B2.
    assert (W1 : wf_cs cs1 ga \/ (ga = None /\ carr cs1 = false)).
    { destruct Wf as (F1 & F2 & F3 & F4). rewrite Ecs. destruct els; [|left; repeat split; auto]. destruct ga as [g|]; [left; repeat split; auto; discriminate|right; split; [reflexivity|exact F1]]. }
    assert (Cm : cmal cs1 = cmal cs) by (rewrite Ecs; destruct els; reflexivity).
    destruct (defarr_run cs1 c2 k2 c dv en dm dt ar ga W1 D) as [R ->]. rewrite Cm in R.
    assert (Ga : match ga with None => Some (if cini cs1 then WithInit else Plain) | _ => ga end = ga_ (DArr x len els) ga).
    { cbn [ga_]. destruct ga; [reflexivity|]. rewrite Ecs. destruct els; [reflexivity|]. destruct Wf as (_ & _ & F3 & _). rewrite F3 by reflexivity. reflexivity. }
    rewrite Ga in R. split.
    + eapply run_app; [exact R|]. apply run_one. cbn [cmal dv_ en_ dm_ dt_ dvars rev app].
      destruct els as [els|].
      * rewrite Li. cbn [ar_ array_of]. destruct Oe as [On Oe].
        assert (Fl : fill len (map evalue els) = map evalue els ++ zeros ((if len =? 0 then Z.of_nat (length els) else len) - Z.of_nat (length els))).
        { unfold fill. rewrite map_length. destruct (len =? 0); [|reflexivity]. rewrite Z.sub_diag. cbn. rewrite app_nil_r. reflexivity. }
        rewrite Fl. apply kn_arr; auto.
        -- destruct els; [congruence|]. destruct (len =? 0) eqn:E0; [cbn [length]; lia|apply Z.eqb_neq in E0; lia].
        -- destruct (len =? 0) eqn:E0; [lia|]. cbn [negb andb] in B1. apply Z.ltb_ge in B1. exact B1.
      * cbn [ar_ array_of]. destruct (len =? 0) eqn:E0; [lia|]. unfold fill. rewrite E0. cbn [length app Z.of_nat]. rewrite Z.sub_0_r.
        assert (Gs : exists g, ga_ (DArr x len None) ga = Some g /\ (g = Plain \/ g = WithInit)).
        { cbn [ga_]. destruct Wf as (_ & _ & _ & F4). destruct ga as [g|]; [|eauto]. exists g. split; [reflexivity|]. destruct g; auto. congruence. }
        destruct Gs as (g & -> & Hg). apply kn_arr0; [exact Hx|apply Z.eqb_neq in E0; lia|exact Hg].
    + cbn [ga_]. split; [|split; [|split]].
      * cbn [carr]. destruct ga; reflexivity.
      * reflexivity.
      * intros X. destruct ga; discriminate.
      * destruct Wf as (_ & _ & _ & F4). destruct ga; [exact F4|]. destruct els; discriminate.
  - cbn [cstep] in Ec. injection Ec as <-. cbn [ok_decl] in Ok.
    destruct (negb (len =? 0) && (len <? Z.of_nat (length bytes) + 1)) eqn:B; [discriminate|].
    destruct (need_malloc cs) as [c1 k1] eqn:Em. injection E as <- <-. destruct (malloc_run _ _ _ c dv en dm dt ar ga Em) as [R ->]. cbn [cmal].
    split; [|destruct Wf as (F1 & F2 & F3 & F4); cbn [ga_]; repeat split; auto].
    eapply run_app; [exact R|]. apply run_one. cbn [dv_ en_ dm_ dt_ ga_ dvars rev app ar_ array_of].
    assert (Fl : fill len (bytes ++ [0]) = bytes ++ zeros ((if len =? 0 then Z.of_nat (length bytes) + 1 else len) - Z.of_nat (length bytes))).
    { unfold fill. destruct (len =? 0) eqn:E0.
      - f_equal. unfold zeros. replace (Z.to_nat _) with 1%nat by lia. reflexivity.
      - cbn [negb andb] in B. apply Z.ltb_ge in B. rewrite <- app_assoc. f_equal. rewrite app_length. cbn [length app]. unfold zeros.
        replace (Z.to_nat (len - Z.of_nat (length bytes))) with (S (Z.to_nat (len - Z.of_nat (length bytes + 1)))) by lia. reflexivity. }
    rewrite Fl. apply kn_str; [apply Hv; left; reflexivity|]. destruct (len =? 0) eqn:E0; [lia|]. cbn [negb andb] in B. apply Z.ltb_ge in B. exact B.
  - cbn [cstep] in Ec. injection Ec as <-. injection E as <- <-. split; [|exact Wf]. cbn [dv_ en_ dm_ dt_ ga_ dvars ar_ array_of].
    apply enum_run; auto.
  - cbn [cstep] in Ec. injection Ec as <-. destruct (members vn mn zn ms 0) as [l|] eqn:El; [|discriminate]. injection E as <- <-.
    cbn [ok_decl] in Ok. split; [|exact Wf]. cbn [dv_ en_ dm_ ga_ dvars rev app ar_ array_of].
    eapply run_app; [eapply mem_run; [exact El|lia|lia|exact Hm|exact Nm]|].
    destruct t as [t|]; cbn [dt_]; [|apply run_nil; auto]. apply run_one. apply kn_tag; [unfold int_range; lia|]. apply Ht. left. reflexivity.
Qed.
End G.
