(** * Expressions with calls: evaluating them in C and running the calls first *)
From Coq Require Import ZArith List Lia Bool.
From Verif Require Import Base Ast Parse ShArith ShExpr ShCSem ShEqs ShSem ShStmt ShProg ShProg2 ShProg3 ShLock ShNest ShNest1 ShNest2.
Import ListNotations.
Open Scope Z_scope.
Local Notation length := List.length.

Section Nest.
Variables (moff zsz : nat -> Z) (q : bool) (lim tb : nat) (own glob : nat -> bool).
Variables (cf1 cf2 : nat -> list Z -> cstate -> ares cstate).
Notation cev := (cev moff zsz). Notation clv := (clv moff zsz). Notation hst := (hst moff zsz).
Notation cval := (cval moff zsz q). Notation clval := (clval moff zsz q). Notation cargs := (cargs moff zsz q).
Notation lift := (lift tb). Notation lifts := (lifts tb).
Notation yev := (yev moff zsz q cf1). Notation yevs := (yevs moff zsz q cf1). Notation yx := (yx moff zsz q).
Notation chcs := (chcs moff zsz q cf2). Notation chc := (chc moff zsz q cf2).
Definition DT (x : nat) : Prop := (x <= tb)%nat.
Notation ag := (agr DT).
Definition EQV (c d : cstate) : Prop := ag (cs c) (cs d) /\ co c = co d /\ cr c = cr d /\ cx c = cx d.
Definition private (x : nat) : Prop := (tb < x)%nat \/ glob x = false.
Notation arelN := (ShLock.arel cstate cstate EQV bad EQV).
Hypothesis CF : forall f vs c d, EQV c d -> arelN (cf1 f vs c) (cf2 f vs d).
Hypothesis CL : forall f vs d d1, cf2 f vs d = Norm d1 -> forall x, private x -> cs d1 (LV x) = cs d (LV x).
Hypothesis OWN : forall x, own x = true -> (x <= tb)%nat /\ glob x = false.

Lemma eqv_sets c d s t : EQV c d -> ag s t -> EQV (sets s c) (sets t d).
Proof. intros (_ & A & B & C) H. split; [exact H|]. auto. Qed.
Lemma sets_id c : sets (cs c) c = c.
Proof. destruct c. reflexivity. Qed.
Lemma sets_sets s t c : sets s (sets t c) = sets s c.
Proof. reflexivity. Qed.
Lemma ag_temp s t x v : ag s t -> (tb < x)%nat -> ag s (upd (LV x) v t).
Proof.
  intros H Hx l Hl. rewrite upd_other; [apply H; exact Hl|]. intros ->. cbn [inD] in Hl. unfold DT in Hl. lia.
Qed.
Lemma chcs_app l m d : chcs (l ++ m) d = match chcs l d with Norm d1 => chcs m d1 | Halt d1 => Halt d1 end.
Proof. revert d. induction l as [|h l IH]; intros d; [reflexivity|]. cbn [app ShProg.chcs]. destruct (chc h d); [apply IH|reflexivity]. Qed.
(* tame expressions *)
Lemma tame_val r s v s1 R W : tame r = true -> cev r s = Some (v, s1, R, W) -> s1 = s /\ W = [] /\ cval r s = Some (v, s, R, []).
Proof.
  intros T E. pose proof (proj1 (noeff_pw moff zsz r (tame_noeff r T) s)) as K. rewrite E in K. destruct K as [-> ->].
  split; [reflexivity|]. split; [reflexivity|]. unfold ShProg.cval. rewrite E. destruct q; [|reflexivity].
  destruct (tame_hst moff zsz r T s) as [H Hh]; [congruence|]. rewrite Hh. reflexivity.
Qed.
Lemma race_pure Ra Rb : race Ra [] Rb [] = false.
Proof. reflexivity. Qed.
Lemma cargs_tame l : forallb tame l = true -> forall s vs s1 R W, cargs l s = Some (vs, s1, R, W) -> s1 = s /\ W = [].
Proof.
  induction l as [|e l IH]; cbn [forallb ShProg.cargs]; intros T s vs s1 R W E; [inversion E; auto|].
  apply andb_true_iff in T. destruct T as [T1 T2]. destruct (cval e s) as [[[[v s2] R2] W2]|] eqn:Ee; [|discriminate].
  assert (X : cev e s = Some (v, s2, R2, W2)). { unfold ShProg.cval in Ee. destruct (cev e s) as [y|]; [|discriminate]. destruct q; [|exact Ee]. destruct (hst e s); [exact Ee|discriminate]. }
  destruct (tame_val _ _ _ _ _ _ T1 X) as (-> & -> & _).
  destruct (cargs l s) as [[[[vl sl] Rl] Wl]|] eqn:El; [|discriminate]. destruct (IH T2 _ _ _ _ _ El) as [-> ->].
  rewrite race_pure in E. inversion E; auto.
Qed.
(* calls change no private variable except those that receive results *)
Lemma chcs_keep l : TA l -> forall d d1, chcs l d = Norm d1 -> forall x, private x -> ~ In x (map hc_t l) -> cs d1 (LV x) = cs d (LV x).
Proof.
  induction l as [|h l IH]; intros T d d1 E x P N; [inversion E; reflexivity|]. cbn [ShProg.chcs] in E.
  destruct (chc h d) as [d2|] eqn:Eh; [|discriminate]. rewrite (IH (Forall_inv_tail T) d2 d1 E x P) by (intros X; apply N; right; exact X).
  unfold ShProg.chc in Eh. destruct (cargs (hc_a h) (cs d)) as [[[[vs s] R] W]|] eqn:Ea; [|discriminate].
  destruct (cargs_tame _ (Forall_inv T) _ _ _ _ _ Ea) as [-> ->]. unfold ccalled in Eh. rewrite sets_id in Eh.
  destruct (cf2 (hc_f h) vs d) as [d3|] eqn:Ef; [|discriminate]. unfold cstore in Eh. destruct (cr d3); [|discriminate]. inversion Eh; subst.
  cbn [cs sets]. rewrite upd_other; [apply (CL _ _ _ _ Ef x P)|]. intros X. apply N. left. congruence.
Qed.
(* the outcome of a pure expression *)
Definition PV (r : yres) (cs0 : list hc) (r0 : xe) (d : cstate) : Prop :=
  match r with
  | YVal v R W c1 => exists d1 R', chcs cs0 d = Norm d1 /\ EQV c1 d1 /\ cev r0 (cs d1) = Some (v, cs d1, R', [])
  | YHalt c1 => bad c1 \/ exists d1, chcs cs0 d = Halt d1 /\ EQV c1 d1
  end.
Definition PVS (r : yrs) (cs0 : list hc) (r0 : list xe) (d : cstate) : Prop :=
  match r with
  | YVals vs R W c1 => exists d1 R', chcs cs0 d = Norm d1 /\ EQV c1 d1 /\ cargs r0 (cs d1) = Some (vs, cs d1, R', [])
  | YHalts c1 => bad c1 \/ exists d1, chcs cs0 d = Halt d1 /\ EQV c1 d1
  end.
Notation vis := (vis own glob tb).
Lemma vis_le x : vis x = true -> (x <= tb)%nat.
Proof. unfold ShNest.vis. intros H. apply andb_true_iff in H. destruct H as [H _]. apply Nat.leb_le. exact H. Qed.
Lemma visD l : forallb vis l = true -> allD DT l.
Proof. intros H x Hx. rewrite forallb_forall in H. apply vis_le. auto. Qed.
Lemma ysets_vars : (forall e, incl (ysets e) (yvars e)) /\ (forall l, incl (ysetss l) (yvarss l)).
Proof.
  apply ye_yes_ind; cbn [ysets yvars ysetss yvarss]; intros; try (apply incl_nil_l); auto.
  1-3: apply incl_app; [apply incl_appl|apply incl_appr]; assumption.
  - apply incl_appl. assumption.
  - apply incl_cons; [left; reflexivity|apply incl_tl; assumption].
  - apply incl_app; [apply incl_appl|apply incl_appr]; assumption.
Qed.
(* what is left of an operand has the same value after the calls of the next one *)
Lemma wait_val a k ca ra k1 cb nc S d1 d2 v R :
  lift a k = (ca, ra, k1) -> tame ra = true -> waits own a nc S = true -> (nc = true -> cb = []) ->
  TG tb S k1 cb -> TA cb -> (forall x, In x S -> (x <= tb)%nat) -> chcs cb d1 = Norm d2 ->
  cev ra (cs d1) = Some (v, cs d1, R, []) -> cev ra (cs d2) = Some (v, cs d2, R, []).
Proof.
  intros L T Hw Hn HT HA HS E V. unfold waits in Hw. destruct nc.
  - rewrite (Hn eq_refl) in E. inversion E; subst. exact V.
  - cbn [orb] in Hw. apply andb_true_iff in Hw. destruct Hw as [Hs Hd]. destruct (still_facts tb own a k ca ra k1 L Hs) as [NM RO].
    destruct (proj1 (lift_facts tb) a k ca ra k1 L) as (_ & _ & XR & _).
    assert (ON : onv (xvars ra) (cs d1) (cs d2)).
    { intros x Hx. symmetry. unfold XV in XR. rewrite Forall_forall in XR. specialize (XR x Hx).
      apply (chcs_keep cb HA d1 d2 E).
      - destruct XR as [XR|XR]; [|left; lia]. right. rewrite forallb_forall in RO. apply (OWN x (RO x XR)).
      - intros HI. apply in_map_iff in HI. destruct HI as [h [E1 HI]]. unfold TG in HT. rewrite Forall_forall in HT. specialize (HT h HI). rewrite E1 in HT.
        destruct HT as [HT|HT].
        + destruct XR as [XR|XR]; [|specialize (HS x HT); lia]. unfold disjn in Hd. rewrite forallb_forall in Hd. specialize (Hd x HT).
          apply negb_true_iff in Hd. assert (existsb (Nat.eqb x) (reads a) = true) by (apply existsb_exists; exists x; split; [exact XR|apply Nat.eqb_refl]). congruence.
        + destruct XR as [XR|XR]; [|lia]. rewrite forallb_forall in RO. pose proof (proj1 (OWN x (RO x XR))). lia. }
    pose proof (nomem_sw moff zsz ra NM (cs d1) (cs d2) ON) as K. rewrite V in K. cbn [sw] in K. exact (proj2 (proj2 K)).
Qed.
Lemma PV_halt c cs0 r0 d : bad c -> PV (YHalt c) cs0 r0 d.
Proof. left. assumption. Qed.
Lemma bad_stuck c : bad (chalt Stuck c). Proof. reflexivity. Qed.
(* one operand *)
Lemma PV_map cs0 r0 r1 d (y : yres) (g : Z -> list loc -> list loc -> cstate -> yres) :
  PV y cs0 r0 d ->
  (forall v R W c1 d1 R', EQV c1 d1 -> cev r0 (cs d1) = Some (v, cs d1, R', []) ->
     match g v R W c1 with
     | YVal v' _ _ c2 => c2 = c1 /\ exists R2, cev r1 (cs d1) = Some (v', cs d1, R2, [])
     | YHalt c2 => bad c2
     end) ->
  PV (ybind y g) cs0 r1 d.
Proof.
  intros H G. destruct y as [v R W c1|c1]; cbn [PV ybind] in *.
  - destruct H as (d1 & R' & E & Q & V). specialize (G v R W c1 d1 R' Q V). destruct (g v R W c1) as [v' R2 W2 c2|c2]; cbn [PV].
    + destruct G as [-> [R3 G]]. eauto.
    + left. exact G.
  - exact H.
Qed.
(* two operands *)
Lemma PV_two a b k ca ra k1 cb rb k2 c d r1 (g : Z -> list loc -> list loc -> cstate -> Z -> list loc -> list loc -> cstate -> yres) :
  lift a k = (ca, ra, k1) -> lift b k1 = (cb, rb, k2) -> pure own a = true -> pure own b = true ->
  waits own a (nocall b) (ysets b) = true -> (forall x, In x (ysets b) -> (x <= tb)%nat) ->
  PV (yev a c) ca ra d -> (forall c1 d1, EQV c1 d1 -> PV (yev b c1) cb rb d1) ->
  (forall va Ra Wa c1 vb Rb Wb c2 d2 Ra' Rb', EQV c2 d2 ->
     cev ra (cs d2) = Some (va, cs d2, Ra', []) -> cev rb (cs d2) = Some (vb, cs d2, Rb', []) ->
     match g va Ra Wa c1 vb Rb Wb c2 with
     | YVal v' _ _ c3 => c3 = c2 /\ exists R2, cev r1 (cs d2) = Some (v', cs d2, R2, [])
     | YHalt c3 => bad c3
     end) ->
  PV (ybind (yev a c) (fun va Ra Wa c1 => ybind (yev b c1) (g va Ra Wa c1))) (ca ++ cb) r1 d.
Proof.
  intros La Lb Pa Pb HW HV HA HB G. destruct (yev a c) as [va Ra Wa c1|c1]; cbn [PV ybind] in *.
  - destruct HA as (d1 & R' & E & Q & V). specialize (HB c1 d1 Q). destruct (yev b c1) as [vb Rb Wb c2|c2]; cbn [PV ybind] in *.
    + destruct HB as (d2 & R2 & E2 & Q2 & V2).
      destruct (proj1 (lift_facts tb) _ _ _ _ _ Lb) as (_ & TGb & _ & NCb). pose proof (proj1 (proj1 (lift_tame tb own) _ _ _ _ _ Lb Pb)) as TAb.
      pose proof (proj2 (proj1 (lift_tame tb own) _ _ _ _ _ La Pa)) as Ta.
      assert (V1 : cev ra (cs d2) = Some (va, cs d2, R', [])).
      { eapply (wait_val a k ca ra k1 cb (nocall b) (ysets b) d1 d2 va R' La Ta HW); eauto. intros N. apply (NCb N). }
      specialize (G va Ra Wa c1 vb Rb Wb c2 d2 R' R2 Q2 V1 V2). destruct (g va Ra Wa c1 vb Rb Wb c2) as [v' R3 W3 c3|c3]; cbn [PV].
      * destruct G as [-> [R4 G]]. exists d2, R4. split; [|auto]. rewrite chcs_app, E. exact E2.
      * left. exact G.
    + destruct HB as [HB|[d2 [E2 Q2]]]; [left; exact HB|]. right. exists d2. split; [|exact Q2]. rewrite chcs_app, E. exact E2.
  - destruct HA as [HA|[d1 [E Q]]]; [left; exact HA|]. right. exists d1. split; [|exact Q]. rewrite chcs_app, E. reflexivity.
Qed.
Lemma yload_ok v R W c1 d1 (P : cstate -> Prop) :
  EQV c1 d1 ->
  match yload v R W c1 with
  | YVal v' _ _ c2 => c2 = c1 /\ v' = cs d1 (LC v) /\ (0 <=? v) = true
  | YHalt c2 => bad c2
  end.
Proof.
  intros (A & _). unfold yload. destruct (0 <=? v); cbn [andb]; [|apply bad_stuck]. destruct (negb (mem (LC v) W)); [|apply bad_stuck].
  split; [reflexivity|]. split; [|reflexivity]. apply A. exact Logic.I.
Qed.
Lemma load_at v s R : (0 <=? v) = true -> load (at_addr (Some (v, s, R, []))) = Some (s (LC v), s, LC v :: R, []).
Proof. intros H. cbn [at_addr]. rewrite H. reflexivity. Qed.
Lemma yx_pure e c d : tame e = true -> allD DT (xvars e) -> EQV c d -> PV (yx e c) [] e d.
Proof.
  intros T D Q. unfold ShNest.yx. pose proof Q as (A & B & C & X).
  pose proof (cval_ag moff zsz DT q e _ _ D A) as K. destruct (cval e (cs c)) as [[[[v s] R] W]|] eqn:E1; [|left; apply bad_stuck].
  destruct (cval e (cs d)) as [[[[v2 s2] R2] W2]|] eqn:E2; cbn [rag] in K; [|contradiction]. destruct K as (-> & -> & -> & K).
  assert (I1 : forall t x, cval e t = Some x -> cev e t = Some x).
  { intros t x E. unfold ShProg.cval in E. destruct (cev e t); [|discriminate]. destruct q; [|exact E]. destruct (hst e t); [exact E|discriminate]. }
  destruct (tame_val _ _ _ _ _ _ T (I1 _ _ E1)) as (-> & -> & _). destruct (tame_val _ _ _ _ _ _ T (I1 _ _ E2)) as (-> & _ & _).
  rewrite sets_id. cbn [PV]. exists d, R2. split; [reflexivity|]. split; [exact Q|]. apply I1. exact E2.
Qed.
Lemma call_tgt f l x k c d :
  (tb < x \/ x <= tb)%nat ->
  PVS (yevs l c) (fst (fst (lifts l k))) (snd (fst (lifts l k))) d ->
  match match yevs l c with
        | YVals vs R W c => match cf1 f vs c with
                            | Norm c1 => yret (cr c1) R W (CS (cs c1) (co c1) None (cx c1))
                            | Halt c1 => YHalt c1
                            end
        | YHalts c => YHalt c
        end with
  | YVal v R W c1 =>
      exists d1, chcs (fst (fst (lifts l k)) ++ [HC x f (snd (fst (lifts l k)))]) d = Norm d1 /\
        exists d0, EQV c1 d0 /\ d1 = sets (upd (LV x) v (cs d0)) d0
  | YHalt c1 => bad c1 \/ exists d1, chcs (fst (fst (lifts l k)) ++ [HC x f (snd (fst (lifts l k)))]) d = Halt d1 /\ EQV c1 d1
  end.
Proof.
  intros _ H. destruct (lifts l k) as [[cs0 rs] k']. cbn [fst snd] in *. rewrite chcs_app.
  destruct (yevs l c) as [vs R W c1|c1]; cbn [PVS] in H.
  - destruct H as (d1 & R' & E & Q & V). rewrite E. cbn [ShProg.chcs]. unfold ShProg.chc. cbn [hc_a hc_f hc_t]. rewrite V. unfold ccalled.
    rewrite sets_id. pose proof (CF f vs c1 d1 Q) as K. destruct (cf1 f vs c1) as [c2|c2]; cbn [ShLock.arel] in K.
    + destruct K as (d2 & -> & A & B & C & X). unfold yret, cstore. rewrite <- C. destruct (cr c2) as [v|].
      * eexists. split; [reflexivity|]. eexists. split; [|reflexivity]. split; [exact A|]. auto.
      * left. apply bad_stuck.
    + destruct K as [K|(d2 & -> & K)]; [left; exact K|]. right. eauto.
  - destruct H as [H|(d1 & -> & Q)]; [left; exact H|]. right. eauto.
Qed.

Theorem lift_pure :
  (forall e, pure own e = true -> forallb vis (yvars e) = true -> forall k cs0 r k', lift e k = (cs0, r, k') ->
     forall c d, EQV c d -> PV (yev e c) cs0 r d) /\
  (forall l, pures own l = true -> forallb vis (yvarss l) = true -> forall k cs0 r k', lifts l k = (cs0, r, k') ->
     forall c d, EQV c d -> PVS (yevs l c) cs0 r d).
Proof.
  apply ye_yes_ind; cbn [pure pures yvars yvarss].
  - intros e T V k cs0 r k' L c d Q. rewrite lift_eq in L. inversion L; subst. apply yx_pure; auto. apply visD. exact V.
  - intros a IH T V k cs0 r k' L c d Q. rewrite lift_eq in L. cbv beta iota in L. destruct (lift a k) as [[c0 r0] k0] eqn:La. inversion L; subst.
    pose proof (IH T V _ _ _ _ La c d Q) as K. cbn [ShNest.yev]. destruct (yev a c); cbn [PV] in *; [|exact K]. rewrite cev_eq in K || idtac.
    destruct K as (d1 & R' & K1 & K2 & K3). exists d1, R'. rewrite (cev_eq _ _ (XPar r0)). auto.
  - intros a IH T V k cs0 r k' L c d Q. rewrite lift_eq in L. cbv beta iota in L. destruct (lift a k) as [[c0 r0] k0] eqn:La. inversion L; subst.
    pose proof (IH T V _ _ _ _ La c d Q) as K. cbn [ShNest.yev]. destruct (yev a c); cbn [PV] in *; [|exact K].
    destruct K as (d1 & R' & K1 & K2 & K3). exists d1, R'. rewrite (cev_eq _ _ (XPlus r0)). auto.
  - intros a IH T V k cs0 r k' L c d Q. rewrite lift_eq in L. cbv beta iota in L. destruct (lift a k) as [[c0 r0] k0] eqn:La. inversion L; subst.
    pose proof (IH T V _ _ _ _ La c d Q) as K. cbn [ShNest.yev]. destruct (yev a c); cbn [PV] in *; [|exact K].
    destruct K as (d1 & R' & K1 & K2 & K3). exists d1, R'. rewrite (cev_eq _ _ (XCast r0)). auto.
  - intros op a IH T V k cs0 r k' L c d Q. rewrite lift_eq in L. cbv beta iota in L. destruct (lift a k) as [[c0 r0] k0] eqn:La. inversion L; subst.
    apply (PV_map _ r0 _ _ _ _ (IH T V _ _ _ _ La c d Q)). intros v R W c1 d1 R' Q1 E1. unfold yret.
    destruct (cunary op v) as [w|] eqn:Eu; [|apply bad_stuck]. split; [reflexivity|]. rewrite (cev_eq _ _ (XUn op r0)). rewrite E1. cbn [cmap]. rewrite Eu. eauto.
  - intros a IH T V k cs0 r k' L c d Q. rewrite lift_eq in L. cbv beta iota in L. destruct (lift a k) as [[c0 r0] k0] eqn:La. inversion L; subst.
    apply (PV_map _ r0 _ _ _ _ (IH T V _ _ _ _ La c d Q)). intros v R W c1 d1 R' Q1 E1.
    pose proof (yload_ok v R W c1 d1 (fun _ => True) Q1) as K. destruct (yload v R W c1) as [v' R2 W2 c2|c2]; [|exact K].
    destruct K as (-> & -> & K). split; [reflexivity|]. rewrite (cev_eq _ _ (XDeref r0)). rewrite E1, load_at by exact K. eauto.
  - intros a IH m T V k cs0 r k' L c d Q. rewrite lift_eq in L. cbv beta iota in L. destruct (lift a k) as [[c0 r0] k0] eqn:La. inversion L; subst.
    apply (PV_map _ r0 _ _ _ _ (IH T V _ _ _ _ La c d Q)). intros v R W c1 d1 R' Q1 E1. unfold yret.
    destruct (carith PLUS v (moff m)) as [w|] eqn:Eu; [|apply bad_stuck]. cbn [ybind].
    pose proof (yload_ok w R W c1 d1 (fun _ => True) Q1) as K. destruct (yload w R W c1) as [v' R2 W2 c2|c2]; [|exact K].
    destruct K as (-> & -> & K). split; [reflexivity|]. rewrite (cev_eq _ _ (XMem r0 m)). rewrite E1. cbn [cmap]. rewrite Eu, load_at by exact K. eauto.
  - intros a IHa b IHb T V k cs0 r k' L c d Q. rewrite lift_eq in L. cbv beta iota in L. destruct (lift a k) as [[c0 r0] k0] eqn:La.
    destruct (lift b k0) as [[c1 r1] k1] eqn:Lb. inversion L; subst. rewrite !andb_true_iff in T. destruct T as [[T1 T2] T3].
    pose proof V as V0. rewrite forallb_app in V. apply andb_true_iff in V. destruct V as [V1 V2].
    refine (PV_two a b k c0 r0 k0 c1 r1 k' c d (XIdx r0 r1) _ La Lb T1 T2 T3 _ (IHa T1 V1 _ _ _ _ La c d Q) (fun c d Q => IHb T2 V2 _ _ _ _ Lb c d Q) _).
    { intros x Hx. apply vis_le. rewrite forallb_forall in V2. apply V2, (proj1 ysets_vars), Hx. }
    intros va Ra Wa c2 vb Rb Wb c3 d2 Ra' Rb' Q2 E1 E2. destruct (race Ra Wa Rb Wb); [apply bad_stuck|]. unfold yret.
    destruct (carith PLUS va vb) as [w|] eqn:Eu; [|apply bad_stuck]. cbn [ybind].
    pose proof (yload_ok w (Ra ++ Rb) (Wa ++ Wb) c3 d2 (fun _ => True) Q2) as K. destruct (yload w _ _ c3) as [v' R2 W2 c4|c4]; [|exact K].
    destruct K as (-> & -> & K). split; [reflexivity|]. rewrite (cev_eq _ _ (XIdx r0 r1)). rewrite E1. cbn [cpair]. rewrite E2, race_pure, Eu.
    cbn [app]. rewrite load_at by exact K. eauto.
  - intros op a IHa b IHb T V k cs0 r k' L c d Q. rewrite lift_eq in L. cbv beta iota in L. destruct (lift a k) as [[c0 r0] k0] eqn:La.
    destruct (lift b k0) as [[c1 r1] k1] eqn:Lb. inversion L; subst. rewrite !andb_true_iff in T. destruct T as [[[[T1 T2] T3] O1] O2].
    rewrite forallb_app in V. apply andb_true_iff in V. destruct V as [V1 V2]. apply negb_true_iff in O1, O2.
    refine (PV_two a b k c0 r0 k0 c1 r1 k' c d (XBin op r0 r1) _ La Lb T1 T2 T3 _ (IHa T1 V1 _ _ _ _ La c d Q) (fun c d Q => IHb T2 V2 _ _ _ _ Lb c d Q) _).
    { intros x Hx. apply vis_le. rewrite forallb_forall in V2. apply V2, (proj1 ysets_vars), Hx. }
    intros va Ra Wa c2 vb Rb Wb c3 d2 Ra' Rb' Q2 E1 E2. destruct (race Ra Wa Rb Wb); [apply bad_stuck|]. unfold yret.
    destruct (carith op va vb) as [w|] eqn:Eu; [|apply bad_stuck]. split; [reflexivity|]. rewrite (cev_eq _ _ (XBin op r0 r1)). rewrite O1, O2, E1.
    cbn [cpair]. rewrite E2, race_pure, Eu. cbn [app]. eauto.
  - intros a IHa b IHb T V k cs0 r k' L c d Q. rewrite lift_eq in L. cbv beta iota in L. destruct (lift a k) as [[c0 r0] k0] eqn:La.
    destruct (lift b k0) as [[c1 r1] k1] eqn:Lb. inversion L; subst. rewrite !andb_true_iff in T. destruct T as [[T1 T2] T3].
    rewrite forallb_app in V. apply andb_true_iff in V. destruct V as [V1 V2].
    refine (PV_two a b k c0 r0 k0 c1 r1 k' c d (XComma r0 r1) _ La Lb T1 T2 T3 _ (IHa T1 V1 _ _ _ _ La c d Q) (fun c d Q => IHb T2 V2 _ _ _ _ Lb c d Q) _).
    { intros x Hx. apply vis_le. rewrite forallb_forall in V2. apply V2, (proj1 ysets_vars), Hx. }
    intros va Ra Wa c2 vb Rb Wb c3 d2 Ra' Rb' Q2 E1 E2. split; [reflexivity|]. rewrite (cev_eq _ _ (XComma r0 r1)). rewrite E1.
    cbn [ShCSem.cthen]. rewrite E2. cbn [app]. eauto.
  - intros t IH a b T V k cs0 r k' L c d Q. rewrite lift_eq in L. cbv beta iota in L. destruct (lift t k) as [[c0 r0] k0] eqn:La. inversion L; subst.
    rewrite !andb_true_iff in T. destruct T as [[[[T1 T2] T3] T4] T5]. rewrite !forallb_app, !andb_true_iff in V. destruct V as [V1 [V2 V3]].
    apply (PV_map _ r0 _ _ _ _ (IH T1 V1 _ _ _ _ La c d Q)). intros v R W c1 d1 R' Q1 E1.
    assert (X : forall e, tame e = true -> forallb vis (xvars e) = true ->
      match ybind (yx e c1) (fun v R2 W2 c => YVal v (R ++ R2) (W ++ W2) c) with
      | YVal v' _ _ c2 => c2 = c1 /\ exists R2, cev e (cs d1) = Some (v', cs d1, R2, [])
      | YHalt c2 => bad c2
      end).
    { intros e Te Ve. pose proof (yx_pure e c1 d1 Te (visD _ Ve) Q1) as K. unfold ShNest.yx in *.
      destruct (cval e (cs c1)) as [[[[v2 s2] R2] W2]|] eqn:Ee; [|apply bad_stuck]. cbn [ybind PV] in *.
      destruct K as (d2 & R3 & K1 & K2 & K3). inversion K1; subst d2. split; [|eauto].
      assert (I1 : cev e (cs c1) = Some (v2, s2, R2, W2)).
      { unfold ShProg.cval in Ee. destruct (cev e (cs c1)); [|discriminate]. destruct q; [|exact Ee]. destruct (hst e (cs c1)); [exact Ee|discriminate]. }
      destruct (tame_val _ _ _ _ _ _ Te I1) as (-> & _ & _). apply sets_id. }
    rewrite (cev_eq _ _ (XCond r0 a b)), E1. cbn [ShCSem.cthen]. destruct (v =? 0).
    + specialize (X b T3 V3). destruct (ybind (yx b c1) _) as [v' R2 W2 c2|c2]; [|exact X]. destruct X as [-> [R3 X]]. split; [reflexivity|]. rewrite X. cbn [app]. eauto.
    + specialize (X a T2 V2). destruct (ybind (yx a c1) _) as [v' R2 W2 c2|c2]; [|exact X]. destruct X as [-> [R3 X]]. split; [reflexivity|]. rewrite X. cbn [app]. eauto.
  - intros f l IH T V k cs0 r k' L c d Q. rewrite lift_eq in L. cbv beta iota in L. destruct (lifts l k) as [[c0 r0] k0] eqn:Ll. inversion L; subst.
    pose proof (call_tgt f l (tb + S k) k c d ltac:(lia)) as K. rewrite Ll in K. specialize (K (IH T V _ _ _ _ Ll c d Q)). cbn [fst snd] in K.
    change (yev (YCall f l) c) with (match yevs l c with
        | YVals vs R W c => match cf1 f vs c with
                            | Norm c1 => yret (cr c1) R W (CS (cs c1) (co c1) None (cx c1))
                            | Halt c1 => YHalt c1
                            end
        | YHalts c => YHalt c
        end).
    destruct (match yevs l c with YVals _ _ _ _ => _ | YHalts _ => _ end) as [v R W c1|c1]; [|exact K].
    destruct K as (d1 & K & d0 & Q0 & ->). cbn [PV]. exists (sets (upd (LV (tb + S k)) v (cs d0)) d0), [LV (tb + S k)]. split; [exact K|]. split.
    + rewrite <- (sets_id c1). apply eqv_sets; [exact Q0|]. apply ag_temp; [apply Q0|lia].
    + rewrite cev_eq. cbn [cs sets]. rewrite upd_same. reflexivity.
  - intros x f l IH T V k cs0 r k' L c d Q. rewrite lift_eq in L. cbv beta iota in L. destruct (lifts l k) as [[c0 r0] k0] eqn:Ll. injection L as <- <- <-.
    cbn [forallb] in V. apply andb_true_iff in V. destruct V as [Vx V].
    pose proof (call_tgt f l x k c d ltac:(lia)) as K. rewrite Ll in K. specialize (K (IH T V _ _ _ _ Ll c d Q)). cbn [fst snd] in K.
    assert (X : yev (YSet x f l) c = ybind (match yevs l c with
        | YVals vs R W c => match cf1 f vs c with
                            | Norm c1 => yret (cr c1) R W (CS (cs c1) (co c1) None (cx c1))
                            | Halt c1 => YHalt c1
                            end
        | YHalts c => YHalt c
        end) (fun v R W c => YVal v R (LV x :: W) (sets (upd (LV x) v (cs c)) c))).
    { change (yev (YSet x f l) c) with (match yevs l c with
        | YVals vs R W c =>
          match cf1 f vs c with
          | Norm c1 => ybind (yret (cr c1) R W (CS (cs c1) (co c1) None (cx c1)))
                         (fun v R W c => YVal v R (LV x :: W) (sets (upd (LV x) v (cs c)) c))
          | Halt c1 => YHalt c1
          end
        | YHalts c => YHalt c
        end). destruct (yevs l c) as [vs R W c1|c1]; [|reflexivity].
      destruct (cf1 f vs c1); reflexivity. }
    rewrite X. clear X. destruct (match yevs l c with YVals _ _ _ _ => _ | YHalts _ => _ end) as [v R W c1|c1]; [|exact K].
    destruct K as (d1 & K & d0 & Q0 & ->). cbn [PV ybind]. exists (sets (upd (LV x) v (cs d0)) d0), [LV x]. split; [exact K|]. split.
    + apply eqv_sets; [exact Q0|]. apply agr_upd, Q0.
    + rewrite cev_eq. cbn [cs sets]. rewrite upd_same. reflexivity.
  - intros _ _ k cs0 r k' L c d Q. rewrite lifts_eq in L. inversion L; subst. cbn [ShNest.yevs PVS]. exists d, []. auto.
  - intros a IHa l IHl T V k cs0 r k' L c d Q. rewrite lifts_eq in L. cbv beta iota in L. destruct (lift a k) as [[c0 r0] k0] eqn:La.
    destruct (lifts l k0) as [[c1 r1] k1] eqn:Ll. inversion L; subst. rewrite !andb_true_iff in T. destruct T as [[T1 T2] T3].
    rewrite forallb_app in V. apply andb_true_iff in V. destruct V as [V1 V2].
    change (yevs (Ycons a l) c) with (match yev a c with
      | YVal v Ra Wa c1 =>
          match yevs l c1 with
          | YVals vs Rb Wb c2 => if race Ra Wa Rb Wb then YHalts (chalt Stuck c2) else YVals (v :: vs) (Ra ++ Rb) (Wa ++ Wb) c2
          | YHalts c2 => YHalts c2
          end
      | YHalt c1 => YHalts c1
      end).
    pose proof (IHa T1 V1 _ _ _ _ La c d Q) as KA. destruct (yev a c) as [va Ra Wa c2|c2]; cbn [PV PVS] in *.
    + destruct KA as (d1 & R' & E & Q1 & W1). pose proof (IHl T2 V2 _ _ _ _ Ll c2 d1 Q1) as KB. destruct (yevs l c2) as [vs Rb Wb c3|c3]; cbn [PVS] in *.
      * destruct KB as (d2 & R2 & E2 & Q2 & W2). destruct (race Ra Wa Rb Wb); [left; apply bad_stuck|].
        destruct (proj2 (lift_facts tb) _ _ _ _ _ Ll) as (_ & TGb & NCb). pose proof (proj1 (proj2 (lift_tame tb own) _ _ _ _ _ Ll T2)) as TAb.
        pose proof (proj2 (proj1 (lift_tame tb own) _ _ _ _ _ La T1)) as Ta.
        assert (V3 : cev r0 (cs d2) = Some (va, cs d2, R', [])).
        { eapply (wait_val a k c0 r0 k0 c1 (nocalls l) (ysetss l) d1 d2 va R' La Ta T3); eauto; [intros N; apply (NCb N)|].
          intros x Hx. apply vis_le. rewrite forallb_forall in V2. apply V2, (proj2 ysets_vars), Hx. }
        destruct (tame_val _ _ _ _ _ _ Ta V3) as (_ & _ & V4). exists d2, (R' ++ R2). split; [rewrite chcs_app, E; exact E2|]. split; [exact Q2|].
        cbn [ShProg.cargs]. rewrite V4, W2, race_pure. reflexivity.
      * destruct KB as [KB|(d2 & E2 & Q2)]; [left; exact KB|]. right. exists d2. split; [|exact Q2]. rewrite chcs_app, E. exact E2.
    + destruct KA as [KA|(d1 & E & Q1)]; [left; exact KA|]. right. exists d1. split; [|exact Q1]. rewrite chcs_app, E. reflexivity.
Qed.
End Nest.
