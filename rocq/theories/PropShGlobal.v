(** * C52: the global declarations give a script its C initial state *)
From Coq Require Import ZArith List Lia Bool String.
From Verif Require Import Base Numerals Output Ast Parse ShArith ShExpr ShCSem ShEqs ShFacts ShFacts2 ShSyn ShSem ShMain ShMain2 ShMain3 ShMain6 PropShArith ShStmt ShProg PropShProg ShNest PropShNest.
From Verif Require ShNames PropShNames.
From Verif Require Import ShGlobal ShGlobal1 ShGlobal2 ShGlobal3 ShGlobal4.
Import ListNotations.
Open Scope Z_scope.
Local Notation length := List.length.

(** ** The specification *)
(* the offsets and sizes that the declared structures have *)
Definition layout (ds : list gdecl) (moff zsz : nat -> Z) : Prop :=
  forall t ms, In (DStruct t ms) ds ->
    (forall i k b, nth_error ms i = Some (k, b) -> moff k = Z.of_nat i) /\ (forall k, t = Some k -> zsz k = Z.of_nat (length ms)).
(* object x is at address p and has these values; without initialiser its words are unset, or 0 *)
Definition object_at (st : gst) (p : Z) (vals : list Z) (init : bool) : Prop :=
  forall j, (j < length vals)%nat ->
    gv st (cell (p + Z.of_nat j)) = Some (nth j vals 0) \/ (init = false /\ gv st (cell (p + Z.of_nat j)) = None).
Record c_start (vn mn zn : nat -> name) (moff zsz : nat -> Z) (ds : list gdecl) (c : nat -> option Z) (st : gst) : Prop := {
  s_vars : forall x v, c x = Some v -> gv st (vn x) = Some v;
  s_enums : forall l x v, In (DEnum l) ds -> In (x, v) l -> gro st (vn x) = true;
  s_vary : forall x i, In (DVar x i) ds -> gro st (vn x) = false;
  s_members : forall t ms k b, In (DStruct t ms) ds -> In (k, b) ms -> gv st (mn k) = Some (moff k) /\ gro st (mn k) = true;
  s_sizes : forall t ms, In (DStruct (Some t) ms) ds -> gv st (zn t) = Some (zsz t) /\ gro st (zn t) = true;
  s_arrays : exists pos top,
    (arrays ds <> [] -> gv st ALLOC = Some top) /\
    (forall x vals i, In (x, vals, i) (arrays ds) ->
       gv st (vn x) = Some (pos x) /\ gro st (vn x) = false /\ 1 <= pos x /\ pos x + Z.of_nat (length vals) <= top /\ object_at st (pos x) vals i) /\
    (forall x y vx vy i j, In (x, vx, i) (arrays ds) -> In (y, vy, j) (arrays ds) -> x <> y ->
       pos x + Z.of_nat (length vx) <= pos y \/ pos y + Z.of_nat (length vy) <= pos x);
  s_rest : forall x, ~ In x (flat_map dvars ds) -> gv st (vn x) = None }.
(* the declarations of C: every name once, enumeration constants and sizes of int *)
Record c_program (ds : list gdecl) : Prop := {
  p_vars : NoDup (flat_map dvars ds); p_members : NoDup (flat_map dmembers ds); p_tags : NoDup (flat_map dtags ds);
  p_ok : Forall ok_decl ds }.

(** ** The run *)
Section Run.
Variable N : Z.
Hypothesis HN : 32 <= N.
Variables (vn mn zn : nat -> name) (moff zsz : nat -> Z).
Hypothesis NK : names_ok vn mn zn moff zsz.
Hypothesis GN : gnames vn mn zn.
Variable sev : list item -> vars -> option (list Z * vars).
Hypothesis SE : forall t g l g1, exp N t g l g1 -> sev t g = Some (l, g1).
Variable tag : bool.
Notation Kn := (Kn vn mn zn). Notation run_ok := (run_ok sev tag).

Definition lf (ga : option arrdef) (ds : list gdecl) : Prop :=
  match ga with
  | None => lists_first ds = true
  | Some Plain => forallb (fun d => match d with DArr _ _ (Some _) => false | _ => true end) ds = true
  | _ => True
  end.
Lemma lf_step d ds ga : ga <> Some Broken -> lf ga (d :: ds) -> (match d with DArr _ _ (Some _) => ga_ d ga = Some WithInit | _ => True end) /\ lf (ga_ d ga) ds.
Proof.
  intros Nb H. destruct d as [x i|x len [els|]|x len b|l|t ms]; destruct ga as [[| |]|]; cbn [ga_ lf lists_first forallb andb] in *; try congruence; auto; try discriminate.
Qed.
Lemma nodup_app {A} (a b : list A) : NoDup (a ++ b) -> NoDup a /\ NoDup b /\ forall x, In x a -> ~ In x b.
Proof.
  induction a as [|x a IH]; cbn [app]; intros H; [split; [constructor|auto]|]. inversion H as [|? ? Hn Hd]; subst. destruct (IH Hd) as (A1 & A2 & A3).
  split; [|split; [exact A2|]].
  - constructor; [|exact A1]. intros X. apply Hn, in_or_app. auto.
  - intros y [<-|Hy]; [intros X; apply Hn, in_or_app; auto|apply A3, Hy].
Qed.
Lemma mvals_in ms : forall off k w, In (k, w) (mvals ms off) -> In k (map fst ms).
Proof. induction ms as [|[j b] ms IH]; intros off k w H; [destruct H|]. destruct H as [H|H]; [left; injection H as -> _; reflexivity|right; eapply IH; eauto]. Qed.
Lemma runs ds : forall cs c c' dv en dm dt ar ga code,
  glo_decls true vn mn zn ds cs = Some code -> consts moff zsz ds c = Some c' -> Forall ok_decl ds -> wf_cs cs ga -> lf ga ds ->
  NoDup (flat_map dvars ds) -> (forall x, In x (flat_map dvars ds) -> ~ In x dv) ->
  NoDup (flat_map dmembers ds) -> (forall x, In x (flat_map dmembers ds) -> forall w, ~ In (x, w) dm) ->
  NoDup (flat_map dtags ds) -> (forall x, In x (flat_map dtags ds) -> forall w, ~ In (x, w) dt) ->
  exists m' ga', run_ok code (Kn c dv en dm dt ar (cmal cs) ga)
    (Kn c' (fold_left (fun a d => dv_ d a) ds dv) (fold_left (fun a d => en_ d a) ds en) (fold_left (fun a d => dm_ d a) ds dm)
        (fold_left (fun a d => dt_ d a) ds dt) (fold_left (fun a d => ar_ d a) ds ar) m' ga').
Proof.
  induction ds as [|d ds IH]; intros cs c c' dv en dm dt ar ga code E Ec Ok Wf L Nv Dv Nm Dm Nt Dt.
  - cbn [glo_decls consts] in *. injection E as <-. injection Ec as <-. exists (cmal cs), ga. cbn [fold_left]. apply run_nil. auto.
  - cbn [glo_decls flat_map fold_left] in *. destruct (glo_decl true vn mn zn d cs) as [[cs1 k]|] eqn:Ed; [|discriminate].
    destruct (glo_decls true vn mn zn ds cs1) as [l|] eqn:El; [|discriminate]. injection E as <-.
    rewrite consts_step in Ec. destruct (cstep moff zsz d c) as [c1|] eqn:Ecs; [|discriminate]. inversion Ok as [|? ? Od Ods]; subst.
    destruct (nodup_app _ _ Nv) as (V1 & V2 & V3). destruct (nodup_app _ _ Nm) as (M1 & M2 & M3). destruct (nodup_app _ _ Nt) as (T1 & T2 & T3).
    destruct (lf_step d ds ga (proj2 (proj2 (proj2 Wf))) L) as [Li L'].
    destruct (decl_run N HN vn mn zn moff zsz NK GN sev SE tag d cs cs1 k c c1 dv en dm dt ar ga Ed Ecs Od Wf) as [R Wf']; auto.
    { intros x Hx. apply Dv, in_or_app. auto. } { intros x Hx. apply Dm, in_or_app. auto. } { intros x Hx. apply Dt, in_or_app. auto. }
    destruct (IH cs1 c1 c' (dv_ d dv) (en_ d en) (dm_ d dm) (dt_ d dt) (ar_ d ar) (ga_ d ga) l El Ec Ods Wf' L') as (m' & ga' & R2); auto.
    + intros x Hx X. unfold dv_ in X. apply in_app_or in X as [X|X]; [apply in_rev in X; exact (V3 _ X Hx)|]. exact (Dv x (in_or_app _ _ _ (or_intror Hx)) X).
    + intros x Hx w X. assert (Y : ~ In (x, w) dm) by (apply Dm, in_or_app; auto). destruct d; cbn [dm_] in X; try contradiction.
      apply in_app_or in X as [X|X]; [|contradiction]. apply in_rev in X. apply mvals_in in X. exact (M3 _ X Hx).
    + intros x Hx w X. assert (Y : ~ In (x, w) dt) by (apply Dt, in_or_app; auto). destruct d as [| | | |[t|] ms]; cbn [dt_] in X; try contradiction.
      destruct X as [X|X]; [|contradiction]. injection X as -> _. apply (T3 x); [left; reflexivity|exact Hx].
    + exists m', ga'. eapply run_app; eauto.
Qed.
(* what the lists hold in the end *)
Lemma dv_in ds : forall dv x, In x (fold_left (fun a d => dv_ d a) ds dv) <-> In x (flat_map dvars ds) \/ In x dv.
Proof.
  induction ds as [|d ds IH]; intros dv x; [cbn; tauto|]; cbn [fold_left flat_map]. rewrite IH. unfold dv_. rewrite !in_app_iff, <- in_rev. tauto.
Qed.
Lemma en_in ds : forall en x, In x (fold_left (fun a d => en_ d a) ds en) <-> (exists l, In (DEnum l) ds /\ In x (map fst l)) \/ In x en.
Proof.
  induction ds as [|d ds IH]; intros en x; cbn [fold_left]; [firstorder|]. rewrite IH. destruct d; cbn [en_]; try (split; [intros [(l' & H1 & H2)|H]; [left; exists l'; split; [right; exact H1|exact H2]|auto]|intros [(l' & [H1|H1] & H2)|H]; [discriminate|left; eauto|auto]]).
  rewrite in_app_iff, <- in_rev. split.
  - intros [(l' & H1 & H2)|[H|H]]; [left; exists l'; split; [right; exact H1|exact H2]|left; exists l; split; [left; reflexivity|exact H]|auto].
  - intros [(l' & [H1|H1] & H2)|H]; [injection H1 as ->; auto|left; eauto|auto].
Qed.
Lemma dm_in ds : forall dm p, In p (fold_left (fun a d => dm_ d a) ds dm) <-> (exists t ms, In (DStruct t ms) ds /\ In p (mvals ms 0)) \/ In p dm.
Proof.
  induction ds as [|d ds IH]; intros dm p; cbn [fold_left]; [firstorder|]. rewrite IH. destruct d; cbn [dm_]; try (split; [intros [(t' & l' & H1 & H2)|H]; [left; exists t', l'; split; [right; exact H1|exact H2]|auto]|intros [(t' & l' & [H1|H1] & H2)|H]; [discriminate|left; eauto|auto]]).
  rewrite in_app_iff, <- in_rev. split.
  - intros [(t' & l' & H1 & H2)|[H|H]]; [left; exists t', l'; split; [right; exact H1|exact H2]|left; exists tag0, ms; split; [left; reflexivity|exact H]|auto].
  - intros [(t' & l' & [H1|H1] & H2)|H]; [injection H1 as -> ->; auto|left; eauto|auto].
Qed.
Lemma dt_in ds : forall dt p, In p (fold_left (fun a d => dt_ d a) ds dt) <-> (exists t ms, In (DStruct (Some t) ms) ds /\ p = (t, Z.of_nat (length ms))) \/ In p dt.
Proof.
  induction ds as [|d ds IH]; intros dt p; cbn [fold_left]; [firstorder|]. rewrite IH.
  assert (Q : (exists t ms, In (DStruct (Some t) ms) (d :: ds) /\ p = (t, Z.of_nat (length ms))) <-> (exists t ms, d = DStruct (Some t) ms /\ p = (t, Z.of_nat (length ms))) \/ (exists t ms, In (DStruct (Some t) ms) ds /\ p = (t, Z.of_nat (length ms)))).
  { split; [intros (t & ms & [H|H] & E); [left|right]; eauto|intros [(t & ms & H & E)|(t & ms & H & E)]; exists t, ms; (split; [|exact E]); [left|right]; assumption]. }
  rewrite Q. destruct d as [| | | |[t|] ms]; cbn [dt_ In];
    try (split; [tauto|intros [[(t' & l' & H1 & H2)|H]|H]; [discriminate|auto|auto]]).
  split.
  - intros [H|[H|H]]; [auto|left; left; exists t, ms; auto|auto].
  - intros [[(t' & l' & H1 & H2)|H]|H]; [injection H1 as -> ->; auto|auto|auto].
Qed.
Lemma ar_in ds : forall ar p, In p (fold_left (fun a d => ar_ d a) ds ar) <-> In p (arrays ds) \/ In p ar.
Proof.
  induction ds as [|d ds IH]; intros ar p; [cbn; tauto|]. cbn [fold_left]. rewrite IH. unfold ar_. change (arrays (d :: ds)) with ((match array_of d with Some a => [a] | None => [] end) ++ arrays ds).
  rewrite in_app_iff. destruct (array_of d); cbn [In]; tauto.
Qed.
Lemma mvals_nth ms : forall off i k b, nth_error ms i = Some (k, b) -> In (k, off + Z.of_nat i) (mvals ms off).
Proof.
  induction ms as [|[j c] ms IH]; intros off [|i] k b H; try discriminate.
  - injection H as -> ->. left. f_equal. lia.
  - right. specialize (IH (off + 1) i k b H). replace (off + Z.of_nat (S i)) with (off + 1 + Z.of_nat i) by lia. exact IH.
Qed.
Lemma chain_disj bl : forall a x p vx i y q vy j, chain a bl -> NoDup (map (fun b : block => fst (fst (fst b))) bl) -> In (x, p, vx, i) bl -> In (y, q, vy, j) bl -> x <> y ->
  p + Z.of_nat (length vx) <= q \/ q + Z.of_nat (length vy) <= p.
Proof.
  induction bl as [|[[[z r] vz] k] bl IH]; intros a x p vx i y q vy j C Nd H1 H2 Hn; [destruct H1|]. cbn [chain map fst] in *. destruct C as (C1 & C2 & C3). inversion Nd; subst.
  destruct H1 as [H1|H1], H2 as [H2|H2].
  - injection H1 as -> -> -> ->. injection H2 as -> -> -> ->. congruence.
  - injection H1 as -> -> -> ->. destruct (chain_in _ _ _ _ _ _ C3 H2). right. lia.
  - injection H2 as -> -> -> ->. destruct (chain_in _ _ _ _ _ _ C3 H1). left. lia.
  - eapply IH; eauto.
Qed.
Lemma block_pos vn' st b : block_ok vn' st b -> gv st (vn' (fst (fst (fst b)))) = Some (snd (fst (fst b))).
Proof. destruct b as [[[x p] vals] i]. intros [H _]. exact H. Qed.
Lemma array_zeros d x vals : array_of d = Some (x, vals, false) -> ok_decl d -> exists k, vals = zeros k.
Proof.
  destruct d as [| x' len [els|]| | |]; cbn [array_of]; intros E Ok; try discriminate. injection E as <- <-. unfold fill. destruct (len =? 0); [exists 0; reflexivity|].
  cbn [app]. eexists. reflexivity.
Qed.

Theorem start ds c code : c_program ds -> lists_first ds = true -> layout ds moff zsz ->
  consts moff zsz ds (fun _ => None) = Some c -> glo_decls true vn mn zn ds cg0 = Some code ->
  (exists st, grun sev tag code gst0 st) /\ forall st, grun sev tag code gst0 st -> c_start vn mn zn moff zsz ds c st.
Proof.
  intros [Nv Nm Nt Ok] Lf Ly Ec E.
  destruct (runs ds cg0 (fun _ => None) c [] [] [] [] [] None code E Ec Ok) as (m' & ga' & R); auto.
  { split; [reflexivity|]. split; [discriminate|]. split; [reflexivity|discriminate]. }
  assert (K0 : Kn (fun _ => None) [] [] [] [] [] false None gst0).
  { exists [], None. split; [reflexivity|]. split; [reflexivity|]. split; [reflexivity|]. constructor; cbn; auto; try discriminate; try contradiction. }
  destruct (R gst0 K0) as [X Q]. split; [exact X|]. intros st Hst. destruct (Q st Hst) as (bl & a & E1 & E2 & E3 & V). clear X Q R K0 Hst.
  assert (Di : forall x, In x (fold_left (fun a d => dv_ d a) ds []) <-> In x (flat_map dvars ds)) by (intros x; rewrite dv_in; cbn [In]; tauto).
  assert (Ein : forall x, gro st (vn x) = true -> exists l, In (DEnum l) ds /\ In x (map fst l)).
  { intros x Hx. destruct (iv_ro _ _ _ _ _ _ _ _ _ _ _ V _ Hx) as [(y & Hy & Ey)|[(k & v & _ & Ek)|(k & v & _ & Ek)]].
    - apply (nk_vinj _ _ _ _ _ NK) in Ey. subst y. apply en_in in Hy as [Hy|[]]. exact Hy.
    - destruct (vm vn mn zn moff zsz NK _ _ Ek).
    - destruct (vz vn mn zn moff zsz NK _ _ Ek). }
  assert (One : forall x d d', In d ds -> In d' ds -> In x (dvars d) -> In x (dvars d') -> d = d').
  { clear - Nv. intros x d d' H1 H2 X1 X2. induction ds as [|e ds IH]; [destruct H1|]. cbn [flat_map] in Nv. destruct (nodup_app _ _ Nv) as (V1 & V2 & V3).
    destruct H1 as [->|H1], H2 as [->|H2]; [reflexivity| | |exact (IH V2 H1 H2)].
    - exfalso. apply (V3 x X1), in_flat_map. eauto.
    - exfalso. apply (V3 x X2), in_flat_map. eauto. }
  assert (Ay : forall x vals i, In (x, vals, i) (arrays ds) -> exists d, In d ds /\ array_of d = Some (x, vals, i) /\ In x (dvars d)).
  { intros x vals i H. apply in_flat_map in H as (d & Hd & H). destruct (array_of d) as [p|] eqn:Ea; [|destruct H]. destruct H as [->|[]].
    exists d. split; [exact Hd|]. split; [exact Ea|]. destruct d as [|x' len [els|]|x' len b| |]; cbn [array_of dvars] in *; try discriminate; injection Ea as <- <- <-; left; reflexivity. }
  assert (Bl : forall x vals i, In (x, vals, i) (arrays ds) <-> exists p, In (x, p, vals, i) bl).
  { intros x vals i. transitivity (In (x, vals, i) (map strip bl)).
    - rewrite E1, ar_in. cbn [In]. tauto.
    - rewrite in_map_iff. split.
      + intros ([[[y p] vs] j] & Ey & H). cbn [strip] in Ey. injection Ey as -> -> ->. eauto.
      + intros (p & H). exists (x, p, vals, i). split; [reflexivity|exact H]. }
  assert (Nb : NoDup (map (fun b : block => fst (fst (fst b))) bl)).
  { assert (Em : map (fun b : block => fst (fst (fst b))) bl = map (fun p : nat * list Z * bool => fst (fst p)) (map strip bl)).
    { rewrite map_map. apply map_ext. intros [[[x p] vs] j]. reflexivity. }
    rewrite Em, E1. clear - Nv.
    assert (G : forall ar : list (nat * list Z * bool), NoDup (map (fun p => fst (fst p)) ar) -> (forall x, In x (flat_map dvars ds) -> ~ In x (map (fun p => fst (fst p)) ar)) ->
      NoDup (map (fun p : nat * list Z * bool => fst (fst p)) (fold_left (fun a d => ar_ d a) ds ar))).
    { induction ds as [|d ds IH]; intros ar N1 N2; cbn [fold_left]; [exact N1|]. cbn [flat_map] in *. destruct (nodup_app _ _ Nv) as (V1 & V2 & V3). apply IH; [exact V2| |].
      - unfold ar_. destruct d as [|x len [els|]|x len b| |]; cbn [array_of]; try exact N1; cbn [map fst]; (constructor; [|exact N1]); apply N2, in_or_app; left; left; reflexivity.
      - intros x Hx. assert (Y : ~ In x (map (fun p => fst (fst p)) ar)) by (apply N2, in_or_app; auto).
        unfold ar_. destruct d as [|x' len [els|]|x' len b| |]; cbn [array_of]; try exact Y; cbn [map fst]; (intros [->|Z0]; [|exact (Y Z0)]); apply (V3 x); auto; left; reflexivity. }
    apply G; [constructor|]. intros x _ []. }
  pose proof (iv_bl _ _ _ _ _ _ _ _ _ _ _ V) as FB. rewrite Forall_forall in FB.
  constructor.
  - exact (iv_c _ _ _ _ _ _ _ _ _ _ _ V).
  - intros l x v Hl Hx. apply (iv_e _ _ _ _ _ _ _ _ _ _ _ V). apply en_in. left. exists l. split; [exact Hl|]. apply in_map_iff. exists (x, v). auto.
  - intros x i Hd. destruct (gro st (vn x)) eqn:Eg; [exfalso|reflexivity]. destruct (Ein x Eg) as (l & Hl & Hx).
    assert (D : DVar x i = DEnum l). { apply (One x); auto. left. reflexivity. } discriminate.
  - intros t ms k b Hd Hk. apply In_nth_error in Hk as [i Hi]. destruct (Ly t ms Hd) as [L1 _]. rewrite (L1 _ _ _ Hi).
    apply (iv_m _ _ _ _ _ _ _ _ _ _ _ V). apply dm_in. left. exists t, ms. split; [exact Hd|]. exact (mvals_nth ms 0 i k b Hi).
  - intros t ms Hd. destruct (Ly _ _ Hd) as [_ L2]. rewrite (L2 t eq_refl). apply (iv_t _ _ _ _ _ _ _ _ _ _ _ V). apply dt_in. left. exists t, ms. auto.
  - pose proof (iv_a _ _ _ _ _ _ _ _ _ _ _ V) as A. destruct a as [a|].
    + destruct A as (A1 & A2 & A3). exists (fun x => match gv st (vn x) with Some p => p | None => 0 end), a. split; [intros _; exact A1|].
      assert (P : forall x p vals i, In (x, p, vals, i) bl -> gv st (vn x) = Some p) by (intros x p vals i H; exact (block_pos _ _ _ (FB _ H))).
      split.
      * intros x vals i H. destruct (Ay _ _ _ H) as (d & Hd & Ad & Hxd). pose proof H as H0. apply Bl in H as (p & Hp). pose proof (P _ _ _ _ Hp) as Ep. rewrite Ep.
        destruct (chain_in _ _ _ _ _ _ A2 Hp) as (C1 & C2 & C3). split; [reflexivity|]. split.
        -- destruct (gro st (vn x)) eqn:Eg; [exfalso|reflexivity]. destruct (Ein x Eg) as (l & Hl & Hx).
           assert (D : d = DEnum l) by (apply (One x); auto). subst d. discriminate.
        -- split; [exact C1|]. split; [exact C2|]. intros j Hj. destruct (FB _ Hp) as [_ B]. specialize (B j Hj). cbv zeta in B. destruct i; [left; exact B|].
           destruct B as [B|B]; [right; auto|left]. rewrite B. f_equal. destruct (array_zeros _ _ _ Ad (proj1 (Forall_forall _ _) Ok _ Hd)) as (k & ->). symmetry. apply nth_zeros.
      * intros x y vx vy i j H1 H2 Hn. apply Bl in H1 as (p & H1). apply Bl in H2 as (q & H2). rewrite (P _ _ _ _ H1), (P _ _ _ _ H2).
        eapply chain_disj; eauto.
    + destruct A as (-> & _). assert (Z0 : arrays ds = []).
      { destruct (arrays ds) as [|[[x vals] i] r] eqn:Er; [reflexivity|]. destruct (proj1 (Bl x vals i) (or_introl eq_refl)) as (p & []). }
      exists (fun _ => 0), 0. rewrite Z0. split; [congruence|]. split; intros; contradiction.
  - intros x Hx. apply (iv_un _ _ _ _ _ _ _ _ _ _ _ V). rewrite Di. exact Hx.
Qed.
End Run.

(** ** The claim *)
(* For every shell that expands words as POSIX says, every list of C global declarations (arrays with an
   initialiser list before those without one, built with RT_NO_INIT_GLOBALS) and with or without object headers: the
   commands that pnut emits run to the end, and every way to run them leaves the C initial state.  Words of
   arrays without initialiser can be unset. *)
Theorem c52_partial : forall N sev vn mn zn moff zsz tag,
  32 <= N -> names_ok vn mn zn moff zsz -> gnames vn mn zn -> (forall t g l g1, exp N t g l g1 -> sev t g = Some (l, g1)) ->
  forall ds c code, c_program ds -> lists_first ds = true -> layout ds moff zsz ->
  consts moff zsz ds (fun _ => None) = Some c -> glo_decls true vn mn zn ds cg0 = Some code ->
  (exists st, grun sev tag code gst0 st) /\ forall st, grun sev tag code gst0 st -> c_start vn mn zn moff zsz ds c st.
Proof. intros N sev vn mn zn moff zsz tag HN NK GN SE ds c code. apply (start N HN vn mn zn moff zsz NK GN sev SE tag). Qed.

(* the state in which C starts main *)
Definition c_init (ds : list gdecl) (c : nat -> option Z) (s : store) : Prop :=
  (forall x v, c x = Some v -> s (LV x) = v) /\
  exists pos : nat -> Z,
    (forall x vals i, In (x, vals, i) (arrays ds) ->
       s (LV x) = pos x /\ 1 <= pos x /\ (i = true -> forall j, (j < length vals)%nat -> s (LC (pos x + Z.of_nat j)) = nth j vals 0)) /\
    (forall x y vx vy i j, In (x, vx, i) (arrays ds) -> In (y, vy, j) (arrays ds) -> x <> y ->
       pos x + Z.of_nat (length vx) <= pos y \/ pos y + Z.of_nat (length vy) <= pos x).
(* the declarations, then main: with C50, the script does what the C program does from its initial state *)
Theorem c52_program_partial : forall N sev ro vn mn zn moff zsz tag, setting N sev ro vn mn zn moff zsz -> gnames vn mn zn ->
  forall ds c code, c_program ds -> lists_first ds = true -> layout ds moff zsz ->
  consts moff zsz ds (fun _ => None) = Some c -> glo_decls true vn mn zn ds cg0 = Some code ->
  forall tb glob prg, (forall f d, prg f = Some d -> ok_yfun tb glob d) ->
  forall trd loc frd, script vn mn zn (fun f => option_map (lift_fun tb) (prg f)) trd loc frd ->
  forall st g, grun sev tag code gst0 st -> extends g st ->
  let s := fun l => g (nm vn l) in
  c_init ds c s /\
  forall lim n main, snd (yrun moff zsz true lim prg n main s) <> Stuck ->
    srun sev ro vn mn zn lim trd loc frd n main g = yrun moff zsz false lim prg n main s.
Proof.
  intros N sev ro vn mn zn moff zsz tag SET GN ds c code P Lf Ly Ec E tb glob prg OK trd loc frd Sc st g R X s.
  destruct (c52_partial N sev vn mn zn moff zsz tag (st_bits _ _ _ _ _ _ _ _ SET) (st_names _ _ _ _ _ _ _ _ SET) GN (st_shell _ _ _ _ _ _ _ _ SET) ds c code P Lf Ly Ec E) as [_ Q].
  specialize (Q st R). split.
  - destruct Q as [Q1 _ _ _ _ (pos & top & _ & Q2 & Q3) _]. split.
    + intros x v Hx. unfold s. cbn [nm]. apply X, Q1, Hx.
    + exists pos. split; [|exact Q3]. intros x vals i Hx. destruct (Q2 x vals i Hx) as (A1 & _ & A2 & _ & A3). split; [unfold s; cbn [nm]; apply X, A1|]. split; [exact A2|].
      intros -> j Hj. destruct (A3 j Hj) as [A|[A _]]; [|discriminate]. unfold s. cbn [nm]. apply X, A.
  - intros lim n main H. exact (proj2 (c50_nested_partial N sev ro vn mn zn moff zsz SET tb glob prg OK trd loc frd Sc lim n main g H)).
Qed.

(* pnut's names (C26) are told apart from each other and from the runtime's variables *)
Lemma runtime_scratch x : In x (ALLOC :: scratch) -> In x ShNames.runtime_vars.
Proof.
  intros H. assert (F : forallb (fun x => existsb (fun y => if list_eq_dec Z.eq_dec x y then true else false) ShNames.runtime_vars) (ALLOC :: scratch) = true) by (vm_compute; reflexivity).
  rewrite forallb_forall in F. specialize (F x H). apply existsb_exists in F as (y & Hy & E). destruct (list_eq_dec Z.eq_dec x y) as [->|]; [exact Hy|discriminate].
Qed.
Theorem c52_names : forall (vx mx zx : nat -> name) moff zsz,
  (forall i, is_ident (vx i) /\ hd 0 (vx i) <> 95) -> (forall i j, vx i = vx j -> i = j) ->
  (forall k, is_ident (mx k) /\ ~ PropShNames.reserved (mx k)) -> (forall i j, mx i = mx j -> i = j) ->
  (forall k, is_ident (zx k)) -> (forall i j, zx i = zx j -> i = j) ->
  names_ok (fun i => ShNames.global_var (vx i)) (fun k => ShNames.struct_member_var (mx k)) (fun k => ShNames.struct_sizeof_var (zx k)) moff zsz /\
  gnames (fun i => ShNames.global_var (vx i)) (fun k => ShNames.struct_member_var (mx k)) (fun k => ShNames.struct_sizeof_var (zx k)).
Proof.
  intros vx mx zx moff zsz HV IV HM IM HZ IZ. split.
  - apply (PropShNames.c26_names_ok (fun _ => false) vx mx zx moff zsz); auto.
    + discriminate.
    + intros i. split; [apply HV|]. intros _. apply HV.
    + intros k. apply HM.
  - assert (D := PropShNames.c26_distinct).
    assert (FV : forall i, PropShNames.fine (ShNames.OGlobal (vx i))) by (intros i; exact (HV i)).
    assert (FM : forall i, PropShNames.fine (ShNames.OMember 0 (mx i))) by (intros i; exact (HM i)).
    assert (FZ : forall i, PropShNames.fine (ShNames.OSizeof (zx i))) by (intros i; exact (HZ i)).
    constructor.
    + intros j k E. pose proof (D (ShNames.OMember 0 (mx j)) (ShNames.OMember 0 (mx k)) (FM j) (FM k) ltac:(intros; congruence) E) as Q. injection Q as Q. auto.
    + intros j k E. pose proof (D (ShNames.OSizeof (zx j)) (ShNames.OSizeof (zx k)) (FZ j) (FZ k) ltac:(discriminate) E) as Q. injection Q as Q. auto.
    + intros j k E. pose proof (D (ShNames.OMember 0 (mx j)) (ShNames.OSizeof (zx k)) (FM j) (FZ k) ltac:(discriminate) E). discriminate.
    + intros x H. pose proof (D (ShNames.OGlobal (vx x)) (ShNames.ORuntime (ShNames.global_var (vx x))) (FV x) (runtime_scratch _ H) ltac:(discriminate) eq_refl). discriminate.
    + intros x H. pose proof (D (ShNames.OMember 0 (mx x)) (ShNames.ORuntime (ShNames.struct_member_var (mx x))) (FM x) (runtime_scratch _ H) ltac:(discriminate) eq_refl). discriminate.
    + intros x H. pose proof (D (ShNames.OSizeof (zx x)) (ShNames.ORuntime (ShNames.struct_sizeof_var (zx x))) (FZ x) (runtime_scratch _ H) ltac:(discriminate) eq_refl). discriminate.
Qed.

(** ** A program *)
(* enum { A = -1, B = 7 };
   int x = (A + B) * 0x10;
   struct s { int p; int q; };
   int t[4] = { 5, 'a', 017 };
   int u[2];
   char str[] = "hi";
   int y;
   A is variable 0, B 1, x 2, t 3, u 4, str 5, y 6 *)
Definition decls1 : list gdecl :=
  [ DEnum [(0%nat, -1); (1%nat, 7)];
    DVar 2 (Some (XBin STAR (XPar (XBin PLUS (XVar 0) (XVar 1))) (XHex 16)));
    DStruct (Some 0%nat) [(0%nat, false); (1%nat, false)];
    DArr 3 4 (Some [LInt 5; LChr 97; LOct 15]);
    DArr 4 2 None;
    DStr 5 0 [104; 105];
    DVar 6 None ].
Definition c1 : nat -> option Z := fun x => match x with 0%nat => Some (-1) | 1%nat => Some 7 | 2%nat => Some 96 | 6%nat => Some 0 | _ => None end.
Lemma gnames0 : gnames vn0 mn0 zn0.
Proof.
  assert (D : forall k, exists c r, decimal (Z.of_nat k) = c :: r) by (intros k; destruct (dec_head (Z.of_nat k) ltac:(lia)) as (c & r & E & _); eauto).
  assert (I : forall x y, decimal (Z.of_nat x) = decimal (Z.of_nat y) -> x = y).
  { intros x y E. apply decimal_inj in E; lia. }
  constructor.
  - intros j k E. apply I. unfold mn0 in E. apply app_inv_head in E. exact E.
  - intros j k E. apply I. unfold zn0 in E. apply app_inv_head in E. exact E.
  - intros j k E. unfold mn0, zn0 in E. discriminate.
  - intros x H. assert (F : Forall (fun n => match n with _ :: x :: _ => x = 95 | _ => False end) (ALLOC :: scratch)) by (repeat constructor).
    rewrite Forall_forall in F. specialize (F _ H). unfold vn0 in F. cbn [app] in F. discriminate.
  - intros x H. assert (F : Forall (fun n => match n with _ :: _ :: x :: _ => x <> 109 /\ x <> 122 | _ => False end) (ALLOC :: scratch)) by (repeat constructor; discriminate).
    rewrite Forall_forall in F. specialize (F _ H). unfold mn0 in F. cbn [app] in F. destruct F as [F _]. congruence.
  - intros x H. assert (F : Forall (fun n => match n with _ :: _ :: x :: _ => x <> 109 /\ x <> 122 | _ => False end) (ALLOC :: scratch)) by (repeat constructor; discriminate).
    rewrite Forall_forall in F. specialize (F _ H). unfold zn0 in F. cbn [app] in F. destruct F as [_ F]. congruence.
Qed.
Theorem c52_instance : forall N sev tag, 32 <= N -> (forall t g l g1, exp N t g l g1 -> sev t g = Some (l, g1)) ->
  c_program decls1 /\ lists_first decls1 = true /\ layout decls1 moff0 (fun _ => 2) /\
  (exists c, consts moff0 (fun _ => 2) decls1 (fun _ => None) = Some c /\ forall x, c x = c1 x) /\
  exists code, glo_decls true vn0 mn0 zn0 decls1 cg0 = Some code /\ exists st, grun sev tag code gst0 st /\
    gv st (vn0 2) = Some 96 /\ gv st (mn0 1) = Some 1 /\ gv st (zn0 0) = Some 2 /\
    exists p, gv st (vn0 3) = Some p /\ map (fun j => gv st (cell (p + j))) [0; 1; 2; 3] = [Some 5; Some 97; Some 15; Some 0].
Proof.
  intros N sev tag HN SE.
  assert (P : c_program decls1).
  { constructor; cbn.
    - repeat constructor; cbn; intuition discriminate.
    - repeat constructor; cbn; intuition discriminate.
    - repeat constructor; cbn; intuition discriminate.
    - repeat constructor; cbn; try discriminate; try reflexivity. }
  assert (L : layout decls1 moff0 (fun _ => 2)).
  { intros t ms H. cbn in H. repeat (destruct H as [H|H]; [try discriminate H|]); [|destruct H]. injection H as <- <-. split.
    - intros [|[|i]] k b H; cbn in H; try (injection H as <- <-; reflexivity). destruct i; discriminate.
    - intros k _. reflexivity. }
  assert (C : exists c, consts moff0 (fun _ => 2) decls1 (fun _ => None) = Some c /\ forall x, c x = c1 x).
  { eexists. split; [vm_compute; reflexivity|]. intros [|[|[|[|[|[|[|x]]]]]]]; reflexivity. }
  split; [exact P|]. split; [reflexivity|]. split; [exact L|]. split; [exact C|]. destruct C as (c & Ec & C).
  destruct (glo_decls true vn0 mn0 zn0 decls1 cg0) as [code|] eqn:E; [|vm_compute in E; discriminate]. exists code. split; [reflexivity|].
  destruct (c52_partial N sev vn0 mn0 zn0 moff0 (fun _ => 2) tag HN) with (ds := decls1) (c := c) (code := code) as [(st & R) Q]; auto.
  { destruct names0_ok. constructor; auto. intros x n v Cn. destruct Cn; [eapply nk_vconst; constructor 1; eauto|eapply nk_vconst; apply cn_mem|eapply nk_vconst; apply cn_siz]. }
  { exact gnames0. }
  exists st. split; [exact R|]. destruct (Q st R) as [Q1 _ _ Q2 Q3 (pos & top & _ & Q4 & _) _].
  split; [apply Q1; rewrite C; reflexivity|]. split; [refine (proj1 (Q2 (Some 0%nat) [(0%nat, false); (1%nat, false)] 1%nat false _ _)); [cbn; tauto|cbn; tauto]|].
  split; [refine (proj1 (Q3 0%nat [(0%nat, false); (1%nat, false)] _)); cbn; tauto|].
  destruct (Q4 3%nat [5; 97; 15; 0] true) as (A1 & _ & _ & _ & A2); [cbn; tauto|]. exists (pos 3%nat). split; [exact A1|].
  assert (B : forall j, (j < 4)%nat -> gv st (cell (pos 3%nat + Z.of_nat j)) = Some (nth j [5; 97; 15; 0] 0)).
  { intros j Hj. destruct (A2 j Hj) as [X|[X _]]; [exact X|discriminate]. }
  pose proof (B 0%nat ltac:(lia)) as B0. pose proof (B 1%nat ltac:(lia)) as B1. pose proof (B 2%nat ltac:(lia)) as B2. pose proof (B 3%nat ltac:(lia)) as B3.
  cbn [map]. change (Z.of_nat 0) with 0 in B0. change (Z.of_nat 1) with 1 in B1. change (Z.of_nat 2) with 2 in B2. change (Z.of_nat 3) with 3 in B3. rewrite B0, B1, B2, B3. reflexivity.
Qed.

(** ** What the restrictions exclude: declarations that pnut compiles wrongly *)
Section Refute.
Variable N : Z.
Hypothesis HN : 32 <= N.
Variables (vn mn zn : nat -> name) (moff zsz : nat -> Z).
Hypothesis NK : names_ok vn mn zn moff zsz.
Hypothesis GN : gnames vn mn zn.
Variable sev : list item -> vars -> option (list Z * vars).
Hypothesis SE : forall t g l g1, exp N t g l g1 -> sev t g = Some (l, g1).
Variable tag : bool.
(* char c = 'A';  the character constants are set at the end of the script: the variable is unset *)
Theorem c52_char_refuted : exists code, glo_decls true vn mn zn [DVar 0 (Some (XChr 65))] cg0 = Some code /\ forall st, ~ grun sev tag code gst0 st.
Proof.
  eexists. split; [reflexivity|]. intros st R. inversion R as [|k l s0 s1 s2 G0 R0]; subst. inversion G0 as [x w v s W Rd| | | | | |]; subst.
  assert (X : forall z, sev [Pv (character_ident 65)] (fun _ => z) = Some (decimal z ++ [], fun _ => z)) by (intros z; apply SE; apply (e_pv N (character_ident 65) [] (fun _ => z)); constructor).
  assert (Y : forall z, z = v).
  { intros z. destruct (Rd (fun _ => z)) as (g1 & E & _); [intros n u H; discriminate H|].
    change (comp_rvalue_go vn mn zn (XChr 65) false 0) with [Pv (character_ident 65)] in E. rewrite X, app_nil_r in E. injection E as E _. apply decimal_inj_all, E. }
  pose proof (Y 0). pose proof (Y 1). congruence.
Qed.
(* without RT_NO_INIT_GLOBALS, int a[3]; calls a function that is not defined *)
Theorem c52_default_build_refuted : exists code, glo_decls false vn mn zn [DArr 0 3 None] cg0 = Some code /\ forall st, ~ grun sev tag code gst0 st.
Proof.
  eexists. split; [reflexivity|]. intros st R. inversion R as [|k l s0 s1 s2 G0 R0]; subst. inversion R0 as [|k l s3 s4 s5 G1 R1]; subst.
  inversion G1; subst. inversion R1 as [|k l s3 s4 s5 G2 R2]; subst. inversion G2 as [| | | |x len ws vs a s s' Ga W A V Sm| |]; subst. cbn [garr] in Ga. destruct Ga; discriminate.
Qed.
(* struct a { int x; }; struct b { int x; };  the second readonly fails *)
Theorem c52_members_refuted : exists code, glo_decls true vn mn zn [DStruct None [(0%nat, false)]; DStruct None [(0%nat, false)]] cg0 = Some code /\ forall st, ~ grun sev tag code gst0 st.
Proof.
  eexists. split; [reflexivity|]. intros st R. inversion R as [|k l s0 s1 s2 G0 R0]; subst. inversion G0 as [|x w v s W Rd| | | | |]; subst.
  inversion R0 as [|k l s3 s4 s5 G1 R1]; subst. inversion G1 as [|x w v' s W' Rd'| | | | |]; subst. rewrite setro_eq in W'. discriminate.
Qed.
(* int x = 5; int x;  the variable is 0 *)
Theorem c52_tentative_refuted : exists code, glo_decls true vn mn zn [DVar 0 (Some (XInt 5)); DVar 0 None] cg0 = Some code /\
  (exists st, grun sev tag code gst0 st) /\ forall st, grun sev tag code gst0 st -> gv st (vn 0) = Some 0.
Proof.
  eexists. split; [reflexivity|]. split.
  - eexists. eapply g_cons; [apply g_set; [reflexivity|apply (reads_int N vn mn zn sev SE 5); unfold int_range; lia]|].
    eapply g_cons; [apply g_set; [reflexivity|apply (reads_int N vn mn zn sev SE 0); unfold int_range; lia]|apply g_nil].
  - intros st R. inversion R as [|k l s0 s1 s2 G0 R0]; subst. inversion R0 as [|k l s3 s4 s5 G1 R1]; subst. inversion R1; subst.
    inversion G1 as [x w v' s W' Rd'| | | | | |]; subst. rewrite setx_eq. f_equal. symmetry. eapply reads_fun; [|exact Rd']. apply (reads_int N vn mn zn sev SE 0). unfold int_range. lia.
Qed.
Lemma arr_plain x len ws vs a st : garr st = Some Plain -> writable x st -> gv st ALLOC = Some a -> Forall2 (fun w v => reads sev w st v) ws vs ->
  gstep sev tag (CArr x len ws) st (do_malloc tag x len a st).
Proof. intros G W A R. eapply g_arr; [left; exact G|exact W|exact A|exact R|]. rewrite G. apply ShGlobal4.same_refl. Qed.
(* int a[3];  its words are unset, C says 0 *)
Theorem c52_unset_refuted : exists code, glo_decls true vn mn zn [DArr 0 3 None] cg0 = Some code /\
  (exists st, grun sev tag code gst0 st) /\
  forall st, grun sev tag code gst0 st -> exists p, gv st (vn 0) = Some p /\ gv st (cell p) = None.
Proof.
  assert (V0 := v_alloc vn mn zn GN). assert (VC := v_cell vn mn zn moff zsz NK).
  eexists. split; [reflexivity|]. split.
  - eexists. eapply g_cons; [apply g_malloc; reflexivity|]. eapply g_cons; [apply g_defarr|].
    eapply g_cons; [|apply g_nil]. eapply (g_arr sev tag (vn 0) 3 [] [] 1); [left; reflexivity| |apply setx_eq|constructor|apply ShGlobal4.same_refl].
    repeat split; reflexivity.
  - intros st R. inversion R as [|k l s0 s1 s2 G0 R0]; subst. inversion G0; subst. inversion R0 as [|k l s3 s4 s5 G1 R1]; subst. inversion G1; subst.
    inversion R1 as [|k l s3 s4 s5 G2 R2]; subst. inversion R2; subst. inversion G2 as [| | | |x len ws vs a s s' Ga W A V (Sm & _)| |]; subst.
    cbn [garr] in Sm. inversion V; subst. exists (base tag a). split.
    + rewrite Sm by (intros X; apply (gn_v _ _ _ GN 0%nat); right; exact X). apply malloc_var, V0.
    + rewrite Sm by (intros X; apply (cell_other (base tag a)); right; exact X). rewrite malloc_cell by (auto; lia). cbn [gv]. rewrite setx_ne by apply c_alloc. reflexivity.
Qed.
(* int a[3]; int b[1] = { 7 };  the initialiser of b is lost *)
Theorem c52_list_lost_refuted : exists code, glo_decls true vn mn zn [DArr 0 3 None; DArr 1 1 (Some [LInt 7])] cg0 = Some code /\
  (exists st, grun sev tag code gst0 st) /\
  forall st, grun sev tag code gst0 st -> exists p, gv st (vn 1) = Some p /\ gv st (cell p) = None.
Proof.
  assert (V0 := v_alloc vn mn zn GN). assert (VC := v_cell vn mn zn moff zsz NK).
  assert (R7 : forall st, reads sev (eword (LInt 7)) st 7) by (intros; apply (reads_elem N HN vn mn zn moff zsz NK sev SE (LInt 7)); reflexivity).
  eexists. split; [reflexivity|]. split.
  - eexists. eapply g_cons; [apply g_malloc; reflexivity|]. eapply g_cons; [apply g_defarr|].
    eapply g_cons; [apply (arr_plain (vn 0) 3 [] [] 1); [reflexivity| |apply setx_eq|constructor]; repeat split; reflexivity|].
    eapply g_cons; [|apply g_nil]. eapply (arr_plain (vn 1) 1 _ [7]).
    + rewrite (proj2 (malloc_ro _ _ _ _ _)). reflexivity.
    + split; [|split]; [| |intros i]; rewrite (proj1 (malloc_ro _ _ _ _ _)); reflexivity.
    + apply malloc_alloc.
    + constructor; [apply R7|constructor].
  - intros st R. inversion R as [|k l s0 s1 s2 G0 R0]; subst. inversion G0; subst. inversion R0 as [|k l s3 s4 s5 G1 R1]; subst. inversion G1; subst.
    inversion R1 as [|k l s3 s4 s5 G2 R2]; subst. inversion R2 as [|k l s6 s7 s8 G3 R3]; subst. inversion R3; subst.
    inversion G2 as [| | | |x len ws vs a s s' Ga W A V (Sm & _ & Sg)| |]; subst. cbn [garr] in Sm, Sg. inversion V; subst. rewrite (proj2 (malloc_ro _ _ _ _ _)) in Sg. cbn [garr] in Sg.
    inversion G3 as [| | | |x len ws vs b s s' Ga' W' A' V' (Sm' & _)| |]; subst. rewrite Sg in Sm'.
    cbn [gv] in A. rewrite setx_eq in A. injection A as <-. rewrite Sm in A' by apply alloc_scratch. rewrite malloc_alloc in A'. injection A' as <-.
    exists (base tag (base tag 1 + 3)). split.
    + rewrite Sm' by (intros X; apply (gn_v _ _ _ GN 1%nat); right; exact X). apply malloc_var, V0.
    + assert (Hb : forall a, a <= base tag a) by (intros a; unfold ShGlobal.base; destruct tag; lia). pose proof (Hb 1). pose proof (Hb (base tag 1 + 3)).
      rewrite Sm' by (intros X; apply (cell_other (base tag (base tag 1 + 3))); right; exact X). rewrite malloc_cell by (auto; lia).
      rewrite Sm by (intros X; apply (cell_other (base tag (base tag 1 + 3))); right; exact X). rewrite malloc_cell by (auto; lia).
      cbn [gv]. rewrite setx_ne by apply c_alloc. reflexivity.
Qed.
End Refute.
