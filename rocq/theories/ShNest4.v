(** * Statements with calls in their expressions *)
From Coq Require Import ZArith List Lia Bool.
From Verif Require Import Base Ast Parse ShArith ShExpr ShCSem ShEqs ShSem ShStmt ShProg ShProg2 ShProg3 ShLock ShNest ShNest1 ShNest2 ShNest3.
Import ListNotations.
Open Scope Z_scope.
Local Notation length := List.length.

Section Nest4.
Variables (moff zsz : nat -> Z) (q : bool) (lim tb : nat) (own glob : nat -> bool).
Variables (cf1 cf2 : nat -> list Z -> cstate -> ares cstate).
Notation cev := (cev moff zsz). Notation clv := (clv moff zsz). Notation hst := (hst moff zsz). Notation hlv := (hlv moff zsz).
Notation cval := (cval moff zsz q). Notation clval := (clval moff zsz q). Notation cargs := (cargs moff zsz q).
Notation lift := (lift tb). Notation lifts := (lifts tb).
Notation yev := (yev moff zsz q cf1). Notation yevs := (yevs moff zsz q cf1). Notation yx := (yx moff zsz q).
Notation chcs := (chcs moff zsz q cf2). Notation chc := (chc moff zsz q cf2).
Notation DT := (DT tb). Notation ag := (agr DT). Notation EQV := (EQV tb). Notation private := (private tb glob).
Notation arelN := (ShLock.arel cstate cstate EQV bad EQV).
Notation vis := (vis own glob tb).
Hypothesis CF : forall f vs c d, EQV c d -> arelN (cf1 f vs c) (cf2 f vs d).
Hypothesis CL : forall f vs d d1, cf2 f vs d = Norm d1 -> forall x, private x -> cs d1 (LV x) = cs d (LV x).
Hypothesis OWN : forall x, own x = true -> (x <= tb)%nat /\ glob x = false.
Notation PV := (PV moff zsz q tb cf2). Notation PVS := (PVS moff zsz q tb cf2).

Definition GV (r : yres) (cs0 : list hc) (r0 : xe) (d : cstate) : Prop :=
  match r with
  | YVal v R W c1 => exists d0 s R' W', chcs cs0 d = Norm d0 /\ cval r0 (cs d0) = Some (v, s, R', W') /\ EQV c1 (sets s d0)
  | YHalt c1 => bad c1 \/ exists d1, chcs cs0 d = Halt d1 /\ EQV c1 d1
  end.
Definition GVS (r : yrs) (cs0 : list hc) (r0 : list xe) (d : cstate) : Prop :=
  match r with
  | YVals v R W c1 => exists d0 s R' W', chcs cs0 d = Norm d0 /\ cargs r0 (cs d0) = Some (v, s, R', W') /\ EQV c1 (sets s d0)
  | YHalts c1 => bad c1 \/ exists d1, chcs cs0 d = Halt d1 /\ EQV c1 d1
  end.
Lemma PV_GV y cs0 r0 d : tame r0 = true -> PV y cs0 r0 d -> GV y cs0 r0 d.
Proof.
  intros T H. destruct y as [v R W c1|c1]; [|exact H]. destruct H as (d1 & R' & E & Q & V). destruct (tame_val moff zsz q r0 _ _ _ _ _ T V) as (_ & _ & V').
  exists d1, (cs d1), R', []. split; [exact E|]. split; [exact V'|]. rewrite sets_id. exact Q.
Qed.
Lemma PVS_GVS y cs0 r0 d : PVS y cs0 r0 d -> GVS y cs0 r0 d.
Proof.
  intros H. destruct y as [v R W c1|c1]; [|exact H]. destruct H as (d1 & R' & E & Q & V).
  exists d1, (cs d1), R', []. split; [exact E|]. split; [exact V|]. rewrite sets_id. exact Q.
Qed.
Lemma yx_GV e c d : allD DT (xvars e) -> EQV c d -> GV (yx e c) [] e d.
Proof.
  intros D Q. unfold ShNest.yx. pose proof Q as (A & B). pose proof (cval_ag moff zsz DT q e _ _ D A) as K.
  destruct (cval e (cs c)) as [[[[v s] R] W]|] eqn:E1; [|left; reflexivity].
  destruct (cval e (cs d)) as [[[[v2 s2] R2] W2]|] eqn:E2; cbn [rag] in K; [|contradiction]. destruct K as (-> & -> & -> & K).
  exists d, s2, R2, W2. split; [reflexivity|]. split; [exact E2|]. apply eqv_sets; assumption.
Qed.
Lemma lift_ok e k cs0 r k' c d : ok_ye own e = true -> forallb vis (yvars e) = true -> lift e k = (cs0, r, k') -> EQV c d -> GV (yev e c) cs0 r d.
Proof.
  intros O V L Q.
  assert (X : pure own e = true -> GV (yev e c) cs0 r d).
  { intros P. apply PV_GV; [apply (proj1 (lift_tame tb own) _ _ _ _ _ L P)|].
    exact (proj1 (lift_pure moff zsz q tb own glob cf1 cf2 CF CL OWN) e P V k cs0 r k' L c d Q). }
  destruct e; try (apply X; exact O). rewrite lift_eq in L. inversion L; subst. apply yx_GV; [|exact Q]. apply (visD tb own glob). exact V.
Qed.
(* arguments without calls *)
Lemma allx_lifts l : allx l = true -> forall k, exists r, lifts l k = ([], r, k) /\ forall c,
  yevs l c = match cargs r (cs c) with Some (vs, s, R, W) => YVals vs R W (sets s c) | None => yevs l c end /\
  (cargs r (cs c) = None -> exists c1, yevs l c = YHalts c1 /\ bad c1) /\
  (forallb vis (yvarss l) = true -> Forall (fun e => allD DT (xvars e)) r).
Proof.
  induction l as [|a l IH]; intros A k.
  - exists []. split; [reflexivity|]. intros c. split; [cbn; rewrite sets_id; reflexivity|]. split; [discriminate|constructor].
  - destruct a as [e| | | | | | | | | | | |]; try discriminate. destruct (IH A k) as (r & L & X). exists (e :: r). split.
    + rewrite lifts_eq. cbv beta iota. rewrite lift_eq. cbv beta iota. rewrite L. reflexivity.
    + intros c. assert (Y : yevs (Ycons (YX e) l) c = match yx e c with
        | YVal v Ra Wa c1 => match yevs l c1 with
          | YVals vs Rb Wb c2 => if race Ra Wa Rb Wb then YHalts (chalt Stuck c2) else YVals (v :: vs) (Ra ++ Rb) (Wa ++ Wb) c2
          | YHalts c2 => YHalts c2
          end
        | YHalt c1 => YHalts c1 end) by reflexivity.
      rewrite Y. clear Y. unfold ShNest.yx. cbn [ShProg.cargs]. destruct (cval e (cs c)) as [[[[v s] R] W]|] eqn:E.
      * destruct (X (sets s c)) as (X1 & X2 & X3). cbn [cs sets] in X1, X2. destruct (cargs r s) as [[[[vs s2] Rb] Wb]|] eqn:E2.
        -- rewrite X1. destruct (race R W Rb Wb).
           ++ split; [reflexivity|]. split; [eexists; split; reflexivity|]. intros V. cbn [yvarss] in V. rewrite forallb_app in V. apply andb_true_iff in V.
              constructor; [apply (visD tb own glob), V|apply X3, V].
           ++ split; [reflexivity|]. split; [discriminate|]. intros V. cbn [yvarss] in V. rewrite forallb_app in V. apply andb_true_iff in V.
              constructor; [apply (visD tb own glob), V|apply X3, V].
        -- destruct (X2 eq_refl) as (c1 & Hy & B). rewrite Hy. split; [reflexivity|]. split; [eauto|]. intros V. cbn [yvarss] in V. rewrite forallb_app in V. apply andb_true_iff in V.
              constructor; [apply (visD tb own glob), V|apply X3, V].
      * split; [reflexivity|]. split; [intros _; eexists; split; reflexivity|]. intros V. cbn [yvarss] in V. rewrite forallb_app in V. apply andb_true_iff in V.
        destruct (X c) as (_ & _ & X3). constructor; [apply (visD tb own glob), V|apply X3, V].
Qed.
Lemma cargs_ag r : Forall (fun e => allD DT (xvars e)) r -> forall s t, ag s t -> rag DT (cargs r s) (cargs r t).
Proof.
  induction r as [|e r IH]; intros F s t A; cbn [ShProg.cargs]; [apply rag_refl; exact A|].
  pose proof (cval_ag moff zsz DT q e s t (Forall_inv F) A) as K.
  destruct (cval e s) as [[[[v s1] R] W]|]; destruct (cval e t) as [[[[v2 s2] R2] W2]|]; cbn [rag] in K; try contradiction; [|exact Logic.I].
  destruct K as (-> & -> & -> & K). specialize (IH (Forall_inv_tail F) s1 s2 K).
  destruct (cargs r s1) as [[[[vs s3] R3] W3]|]; destruct (cargs r s2) as [[[[vs4 s4] R4] W4]|]; cbn [rag] in IH; try contradiction; [|exact Logic.I].
  destruct IH as (-> & -> & -> & IH). destruct (race _ _ _ _); [exact Logic.I|]. cbn [rag]. auto.
Qed.
(* a call of arguments *)
Lemma lifts_ok l k cs0 r k' c d : ok_args own l = true -> forallb vis (yvarss l) = true -> lifts l k = (cs0, r, k') -> EQV c d -> GVS (yevs l c) cs0 r d.
Proof.
  intros O V L Q. unfold ok_args in O. destruct (allx l) eqn:A.
  - destruct (allx_lifts l A k) as (r1 & L1 & X). rewrite L1 in L. inversion L; subst. destruct (X c) as (X1 & X2 & X3). specialize (X3 V).
    pose proof (cargs_ag r X3 _ _ (proj1 Q)) as K. destruct (cargs r (cs c)) as [[[[vs s] R] W]|] eqn:E1.
    + destruct (cargs r (cs d)) as [[[[vs2 s2] R2] W2]|] eqn:E2; cbn [rag] in K; [|contradiction]. destruct K as (-> & -> & -> & K).
      rewrite X1. exists d, s2, R2, W2. split; [reflexivity|]. split; [exact E2|]. apply eqv_sets; assumption.
    + destruct (X2 eq_refl) as (c1 & -> & B). left. exact B.
  - apply PVS_GVS. exact (proj2 (lift_pure moff zsz q tb own glob cf1 cf2 CF CL OWN) l O V k cs0 r k' L c d Q).
Qed.

(** ** Locations *)
Lemma clval_clv e s x : clval e s = Some x -> clv e s = Some x.
Proof. unfold ShProg.clval. destruct (clv e s); [|discriminate]. destruct q; [|auto]. destruct (hlv e s); [auto|discriminate]. Qed.
Lemma tamel_noeff l : tamel l = true -> noeff l = true.
Proof.
  destruct l; cbn [tamel noeff]; intros T; try discriminate; auto using tame_noeff.
  apply andb_true_iff in T. rewrite !tame_noeff by tauto. reflexivity.
Qed.
Lemma tamel_val l s lo s1 R W : tamel l = true -> clv l s = Some (lo, s1, R, W) -> s1 = s /\ W = [] /\ clval l s = Some (lo, s, R, []).
Proof.
  intros T E. pose proof (proj2 (noeff_pw moff zsz l (tamel_noeff l T) s)) as K. rewrite E in K. destruct K as [-> ->].
  split; [reflexivity|]. split; [reflexivity|]. unfold ShProg.clval. rewrite E. destruct q; [|reflexivity].
  destruct (tamel_hlv moff zsz l T s) as [H Hh]; [congruence|]. rewrite Hh. reflexivity.
Qed.
Lemma stilll_sw l : stilll own l = true -> forall s t, onv (xvars l) s t -> forall lo s1 R W, clv l s = Some (lo, s1, R, W) -> clv l t = Some (lo, t, R, W).
Proof.
  intros H s t O lo s1 R W E.
  assert (X : forall e, stillx own e = true -> onv (xvars e) s t -> sw s t (cev e s) (cev e t)).
  { intros e He Oe. apply andb_true_iff in He. apply nomem_sw; [apply He|exact Oe]. }
  destruct l; try discriminate; rewrite clv_eq in *; cbv beta iota in *; cbn [stilll xvars] in *.
  - inversion E; reflexivity.
  - specialize (X l H O). destruct (cev l s) as [[[[v sa] Ra] Wa]|]; [|discriminate]. destruct X as (-> & -> & ->).
    cbn [at_addr] in *. destruct (0 <=? v); [|discriminate]. inversion E; reflexivity.
  - apply andb_true_iff in H. apply onv_app in O. pose proof (X l1 (proj1 H) (proj1 O)) as X1. pose proof (X l2 (proj2 H) (proj2 O)) as X2.
    unfold cpair in *. destruct (cev l1 s) as [[[[v sa] Ra] Wa]|]; [|discriminate]. destruct X1 as (-> & -> & ->).
    destruct (cev l2 s) as [[[[v2 sa] Rb] Wb]|]; [|discriminate]. destruct X2 as (-> & -> & ->).
    destruct (race Ra [] Rb []); [discriminate|]. destruct (carith PLUS v v2) as [w|]; [|discriminate].
    cbn [at_addr] in *. destruct (0 <=? w); [|discriminate]. inversion E; reflexivity.
  - specialize (X l H O). unfold cmap in *. destruct (cev l s) as [[[[v sa] Ra] Wa]|]; [|discriminate]. destruct X as (-> & -> & ->).
    destruct (carith PLUS v (moff k)) as [w|]; [|discriminate].
    cbn [at_addr] in *. destruct (0 <=? w); [|discriminate]. inversion E; reflexivity.
Qed.
Lemma stilll_own l x : stilll own l = true -> In x (xvars l) -> l = XVar x \/ own x = true.
Proof.
  assert (X : forall e, stillx own e = true -> In x (xvars e) -> own x = true).
  { intros e He Hx. apply andb_true_iff in He. destruct He as [_ He]. rewrite forallb_forall in He. auto. }
  destruct l; try discriminate; cbn [stilll xvars]; intros H Hx; eauto.
  - left. destruct Hx as [->|[]]. reflexivity.
  - right. apply andb_true_iff in H. apply in_app_or in Hx. destruct Hx; [apply (X l1)|apply (X l2)]; tauto.
Qed.
(* a location has the same address after the calls of the right operand *)
Lemma lv_wait l nc S k cb c d d1 lo s1 Ra Wa :
  ok_lv own l nc S = true -> forallb vis (xvars l) = true -> (nc = true -> cb = []) ->
  TG tb S k cb -> TA cb -> (forall x, In x S -> (x <= tb)%nat) -> EQV c d -> chcs cb d = Norm d1 ->
  clval l (cs c) = Some (lo, s1, Ra, Wa) -> s1 = cs c /\ Wa = [] /\ inD DT lo /\ clv l (cs d1) = Some (lo, cs d1, Ra, []).
Proof.
  intros H V Hn HT HA HS Q E1 E. unfold ok_lv in H. apply andb_true_iff in H. destruct H as [T H].
  pose proof (visD tb own glob _ V) as D. pose proof (clval_ag moff zsz DT q l _ _ D (proj1 Q)) as K. pose proof (clval_dom moff zsz DT q l (cs c) D) as LD.
  rewrite E in K, LD. destruct (clval l (cs d)) as [[[[lo2 s2] R2] W2]|] eqn:E2; cbn [rag] in K; [|contradiction]. destruct K as (-> & -> & -> & K).
  destruct (tamel_val l _ _ _ _ _ T (clval_clv _ _ _ E)) as (-> & -> & _). destruct (tamel_val l _ _ _ _ _ T (clval_clv _ _ _ E2)) as (-> & _ & _).
  split; [reflexivity|]. split; [reflexivity|]. split; [exact LD|]. destruct nc.
  - rewrite (Hn eq_refl) in E1. inversion E1; subst. apply clval_clv. exact E2.
  - cbn [orb] in H. apply andb_true_iff in H. destruct H as [Hs Hd].
    destruct l as [| | | |y| | | | | | | | | | | | | | | |]; try (apply clval_clv in E2; rewrite clv_eq in *; discriminate);
      try (apply (stilll_sw _ Hs (cs d) (cs d1)) with (s1 := cs d); [|apply clval_clv; exact E2]; intros x Hx;
           destruct (stilll_own _ x Hs Hx) as [Y|Y]; [discriminate|]; symmetry; destruct (OWN x Y) as [O1 O2];
           apply (chcs_keep moff zsz q tb glob cf2 CL cb HA d d1 E1 x); [right; exact O2|]; intros HI; apply in_map_iff in HI; destruct HI as [h [E3 HI]];
           unfold TG in HT; rewrite Forall_forall in HT; specialize (HT h HI); rewrite E3 in HT; destruct HT as [HT|HT]; [|lia];
           unfold disjn in Hd; rewrite forallb_forall in Hd; specialize (Hd x HT); apply negb_true_iff in Hd;
           assert (Z0 : existsb (Nat.eqb x) (xvars _) = true) by (apply existsb_exists; exists x; split; [exact Hx|apply Nat.eqb_refl]); congruence).
    apply clval_clv in E2. rewrite clv_eq in *. cbv beta iota in *. inversion E2; subst. reflexivity.
Qed.

(** ** Statements *)
Notation yact := (yact moff zsz q lim cf1). Notation cact := (cact moff zsz q lim cf2).
Notation ytst := (ytst moff zsz q cf1). Notation ctst := (ctst moff zsz q cf2).
Notation yswv := (yswv moff zsz q cf1). Notation cswv := (cswv moff zsz q cf2).
Lemma arel_stuck c b : arelN (Halt (chalt Stuck c)) b.
Proof. left. reflexivity. Qed.
Lemma ywith_ok y cs0 r0 d (k1 k2 : Z -> cstate -> ares cstate) :
  GV y cs0 r0 d -> (forall v c1 d1, EQV c1 d1 -> arelN (k1 v c1) (k2 v d1)) ->
  arelN (ywith y k1) (cthen (chcs cs0 d) (fun d => cwith moff zsz q r0 d k2)).
Proof.
  intros G K. destruct y as [v R W c1|c1]; cbn [GV ywith] in *.
  - destruct G as (d0 & s & R' & W' & E & V & Q). rewrite E. cbn [cthen]. unfold cwith. rewrite V. apply K. exact Q.
  - destruct G as [G|(d1 & E & Q)]; [left; exact G|]. right. exists d1. rewrite E. split; [reflexivity|exact Q].
Qed.
Lemma ccalled_ok f vs c d k1 k2 : EQV c d -> (forall v c1 d1, EQV c1 d1 -> arelN (k1 v c1) (k2 v d1)) -> arelN (ccalled cf1 f vs c k1) (ccalled cf2 f vs d k2).
Proof.
  intros Q K. unfold ccalled. pose proof (CF f vs c d Q) as X. destruct (cf1 f vs c) as [c1|c1]; cbn [ShLock.arel] in X.
  - destruct X as (d1 & -> & A & B & C & D). rewrite C. apply K. split; [exact A|auto].
  - destruct X as [X|(d1 & -> & X)]; [left; exact X|right; eauto].
Qed.
Lemma cargs_ok y cs0 r0 d f k1 k2 : GVS y cs0 r0 d -> (forall v c1 d1, EQV c1 d1 -> arelN (k1 v c1) (k2 v d1)) ->
  arelN (match y with YVals vs _ _ c => ccalled cf1 f vs c k1 | YHalts c => Halt c end)
    (cthen (chcs cs0 d) (fun c => match cargs r0 (cs c) with
       | Some (vs, s, _, _) => ccalled cf2 f vs (sets s c) k2
       | None => Halt (chalt Stuck c) end)).
Proof.
  intros G K. destruct y as [v R W c1|c1]; cbn [GVS] in *.
  - destruct G as (d0 & s & R' & W' & E & V & Q). rewrite E. cbn [cthen]. rewrite V. apply ccalled_ok; assumption.
  - destruct G as [G|(d1 & E & Q)]; [left; exact G|]. right. exists d1. rewrite E. split; [reflexivity|exact Q].
Qed.
Lemma arel_norm c d : EQV c d -> arelN (Norm c) (Norm d).
Proof. intros Q. exists d. auto. Qed.
Lemma eqv_chalt x c d : EQV c d -> EQV (chalt x c) (chalt x d).
Proof. intros (A & B & C & D). split; [exact A|auto]. Qed.
Lemma eqv_ret v c d : EQV c d -> EQV (CS (cs c) (co c) (Some v) (cx c)) (CS (cs d) (co d) (Some v) (cx d)).
Proof. intros (A & B & C & D). split; [exact A|auto]. Qed.
Lemma store_ok lo v c d : EQV c d -> arelN (cstore lo v c) (cstore lo v d).
Proof. intros Q. unfold cstore. destruct v as [v|]; [|apply arel_stuck]. apply arel_norm, eqv_sets; [exact Q|]. apply agr_upd, Q. Qed.

Lemma asgn_ok op l e cs0 r k' c d : (forall e0, e <> YX e0) -> pure own e = true -> ok_lv own l (nocall e) (ysets e) = true ->
  forallb vis (xvars l) = true -> forallb vis (yvars e) = true -> lift e 0 = (cs0, r, k') -> EQV c d ->
  arelN (match clval l (cs c) with
      | Some (lo, s1, Ra, Wa) =>
          match yev e (sets s1 c) with
          | YVal v Rb Wb c2 =>
              if race Ra Wa Rb Wb || mem lo (Wa ++ Wb) then Halt (chalt Stuck c2)
              else match (if op =? EQ then Some v
                          else match asg_op op with Some o => carith o (cs c2 lo) v | None => None end) with
                   | Some w => Norm (sets (upd lo w (cs c2)) c2)
                   | None => Halt (chalt Stuck c2)
                   end
          | YHalt c2 => Halt c2
          end
      | None => Halt (chalt Stuck c)
      end) (cthen (chcs cs0 d) (fun d => cwith moff zsz q (XAsg op l r) d (fun _ c => Norm c))).
Proof.
  intros NX P OL Vl Ve L Q. destruct (clval l (cs c)) as [[[[lo s1] Ra] Wa]|] eqn:El; [|apply arel_stuck].
  destruct (proj1 (lift_facts tb) _ _ _ _ _ L) as (_ & TG0 & _ & NC). destruct (proj1 (lift_tame tb own) _ _ _ _ _ L P) as [TA0 Tr].
  assert (SV : forall x, In x (ysets e) -> (x <= tb)%nat).
  { intros x Hx. apply (vis_le tb own glob). rewrite forallb_forall in Ve. apply Ve, (proj1 ysets_vars), Hx. }
  assert (T : tamel l = true) by (apply andb_true_iff in OL; apply OL).
  destruct (tamel_val l _ _ _ _ _ T (clval_clv _ _ _ El)) as (-> & -> & _). rewrite sets_id.
  pose proof (proj1 (lift_pure moff zsz q tb own glob cf1 cf2 CF CL OWN) e P Ve 0%nat cs0 r k' L c d Q) as K.
  destruct (yev e c) as [v Rb Wb c2|c2]; cbn [ShNest3.PV] in K.
  2: { destruct K as [K|(d1 & E & Q1)]; [left; exact K|]. right. exists d1. rewrite E. split; [reflexivity|exact Q1]. }
  destruct K as (d1 & R' & E & Q1 & V). rewrite E. cbn [cthen]. destruct (race _ _ _ _ || _); [apply arel_stuck|].
  destruct (lv_wait l (nocall e) (ysets e) 0 cs0 c d d1 lo (cs c) Ra [] OL Vl (fun N => proj1 (NC N)) TG0 TA0 SV Q E El) as (_ & _ & LD & E2).
  destruct (tamel_hlv moff zsz l T (cs d1)) as [H1 Hh1]; [congruence|]. destruct (tame_hst moff zsz r Tr (cs d1)) as [H2 Hh2]; [congruence|].
  assert (HA : hst (XAsg op l r) (cs d1) = Some (H1 ++ H2, [])).
  { rewrite hst_eq. cbv beta iota. rewrite E2, Hh1, Hh2. apply hseq_pure; reflexivity. }
  assert (X : cwith moff zsz q (XAsg op l r) d1 (fun _ c => Norm c) =
    match (if op =? EQ then Some v else match asg_op op with Some o => carith o (cs c2 lo) v | None => None end) with
    | Some w => Norm (sets (upd lo w (cs d1)) d1)
    | None => Halt (chalt Stuck d1) end).
  { unfold cwith, ShProg.cval. rewrite HA. rewrite cev_eq. cbv beta iota. rewrite E2, V. rewrite race_pure. cbn [app orb mem existsb].
    rewrite (proj1 Q1 lo LD). destruct (op =? EQ); [destruct q; reflexivity|]. destruct (asg_op op) as [o|]; [|reflexivity].
    destruct (carith o (cs d1 lo) v); [destruct q; reflexivity|reflexivity]. }
  rewrite X. destruct (if op =? EQ then _ else _) as [w|]; [|apply arel_stuck]. apply arel_norm, eqv_sets; [exact Q1|]. apply agr_upd, Q1.
Qed.
Lemma lift_asgn op l e cs0 r k d : lift e 0 = (cs0, r, k) ->
  cact (fst (lift_atom tb (YAsgn op l e))) d = cthen (chcs cs0 d) (fun d => cwith moff zsz q (XAsg op l r) d (fun _ c => Norm c)).
Proof.
  intros L. cbn [lift_atom]. rewrite L. cbn [fst]. destruct (op =? EQ) eqn:O; [|reflexivity]. apply Z.eqb_eq in O. subst op. reflexivity.
Qed.
Lemma act_ok a c d : ok_yatom own glob tb a = true \/ ok_yret own glob tb a = true -> EQV c d -> arelN (yact a c) (cact (fst (lift_atom tb a)) d).
Proof.
  intros O Q. destruct a as [e|op l e|x f l|e|e|e|f l|]; cbn [ok_yatom ok_yret] in O.
  - assert (O1 : ok_ye own e && forallb vis (yvars e) = true) by (destruct O as [O|O]; [exact O|discriminate O]). apply andb_true_iff in O1. destruct O1 as [O1 V].
    cbn [lift_atom]. destruct (lift e 0) as [[cs0 r] k'] eqn:L. cbn [fst ShNest.yact ShProg.cact]. apply ywith_ok; [eapply lift_ok; eauto|].
    intros. apply arel_norm. assumption.
  - assert (O1 : ok_yatom own glob tb (YAsgn op l e) = true) by (destruct O as [O|O]; [exact O|discriminate]). clear O.
    destruct (lift e 0) as [[cs0 r] k'] eqn:L. rewrite (lift_asgn op l e cs0 r k' d L).
    assert (Z0 : (exists e0, e = YX e0) \/ forall e0, e <> YX e0) by (destruct e; [left; eauto|right; discriminate..]). destruct Z0 as [[e0 ->]|NX].
    + cbn [ok_yatom] in O1. apply andb_true_iff in O1. destruct O1 as [V1 V2]. rewrite lift_eq in L. inversion L; subst.
      cbn [ShNest.yact]. apply ywith_ok; [|intros; apply arel_norm; assumption]. apply yx_GV; [|exact Q]. apply (visD tb own glob). cbn [xvars]. rewrite forallb_app, V1, V2. reflexivity.
    + pose proof (asgn_ok op l e cs0 r k' c d NX) as K. destruct e; try (exfalso; eapply NX; reflexivity); cbn [ok_yatom] in O1;
        rewrite !andb_true_iff in O1; destruct O1 as [[[O1 O2] O3] O4]; exact (K O1 O2 O3 O4 L Q).
  - assert (O1 : ok_yatom own glob tb (YCallS x f l) = true) by (destruct O as [O|O]; [exact O|discriminate]). clear O.
    cbn [lift_atom]. destruct (lifts l 0) as [[cs0 r] k'] eqn:L. cbn [fst]. destruct x as [x|]; cbn [ok_yatom] in O1.
    + rewrite !andb_true_iff in O1. destruct O1 as [[[O1 O2] V1] V2]. cbn [ShNest.yact ShProg.cact]. pose proof (visD tb own glob _ V1) as D.
      destruct (clval x (cs c)) as [[[[lo s1] Ra] Wa]|] eqn:Ex; [|apply arel_stuck].
      destruct (allx l) eqn:A.
      * destruct (allx_lifts l A 0) as (r1 & L1 & X). rewrite L1 in L. inversion L; subst. cbn [ShProg.chcs cthen].
        pose proof (clval_ag moff zsz DT q x _ _ D (proj1 Q)) as K. rewrite Ex in K. destruct (clval x (cs d)) as [[[[lo2 s2] R2] W2]|] eqn:E2; cbn [rag] in K; [|contradiction].
        destruct K as (-> & -> & -> & K). destruct (X (sets s1 c)) as (X1 & X2 & X3). specialize (X3 V2). cbn [cs sets] in X1, X2.
        pose proof (cargs_ag r X3 s1 s2 K) as KA. destruct (cargs r s1) as [[[[vs s3] R3] W3]|] eqn:Ea.
        -- rewrite X1. destruct (cargs r s2) as [[[[vs4 s4] R4] W4]|] eqn:E4; cbn [rag] in KA; [|contradiction]. destruct KA as (-> & -> & -> & KA).
           destruct (race R2 W2 R4 W4); [apply arel_stuck|]. apply ccalled_ok; [|intros; apply store_ok; assumption]. rewrite sets_sets. apply eqv_sets; assumption.
        -- destruct (X2 eq_refl) as (c1 & -> & B). left. exact B.
      * cbn [orb] in O2. unfold ok_args in O1. rewrite A in O1. cbn [orb] in O1.
        destruct (proj2 (lift_facts tb) _ _ _ _ _ L) as (_ & TG0 & NC). destruct (proj2 (lift_tame tb own) _ _ _ _ _ L O1) as [TA0 Tr].
        assert (SV : forall y, In y (ysetss l) -> (y <= tb)%nat).
        { intros y Hy. apply (vis_le tb own glob). rewrite forallb_forall in V2. apply V2, (proj2 ysets_vars), Hy. }
        assert (T : tamel x = true) by (apply andb_true_iff in O2; apply O2).
        destruct (tamel_val x _ _ _ _ _ T (clval_clv _ _ _ Ex)) as (-> & -> & _). rewrite sets_id.
        pose proof (proj2 (lift_pure moff zsz q tb own glob cf1 cf2 CF CL OWN) l O1 V2 0%nat cs0 r k' L c d Q) as K.
        destruct (yevs l c) as [vs Rb Wb c2|c2]; cbn [ShNest3.PVS] in K.
        2: { destruct K as [K|(d1 & E & Q1)]; [left; exact K|]. right. exists d1. rewrite E. split; [reflexivity|exact Q1]. }
        destruct K as (d1 & R' & E & Q1 & V). rewrite E. cbn [cthen]. destruct (race Ra [] Rb Wb); [apply arel_stuck|].
        destruct (lv_wait x (nocalls l) (ysetss l) 0 cs0 c d d1 lo (cs c) Ra [] O2 V1 (fun N => proj1 (NC N)) TG0 TA0 SV Q E Ex) as (_ & _ & LD & E2).
        destruct (tamel_val x _ _ _ _ _ T E2) as (_ & _ & ->). rewrite V, race_pure, sets_id. apply ccalled_ok; [exact Q1|]. intros; apply store_ok; assumption.
    + rewrite !andb_true_iff in O1. destruct O1 as [O1 V2]. cbn [ShNest.yact ShProg.cact].
      apply cargs_ok; [eapply lifts_ok; eauto|]. intros; apply arel_norm; assumption.
  - assert (O1 : ok_ye own e && forallb vis (yvars e) = true) by (destruct O as [O|O]; [exact O|discriminate O]). apply andb_true_iff in O1. destruct O1 as [O1 V].
    cbn [lift_atom]. destruct (lift e 0) as [[cs0 r] k'] eqn:L. cbn [fst ShNest.yact ShProg.cact]. apply ywith_ok; [eapply lift_ok; eauto|].
    intros v c1 d1 (A1 & B1 & C1 & D1). destruct (byte v); [|apply arel_stuck]. rewrite B1. destruct (Nat.ltb (length (co d1)) lim).
    + apply arel_norm. split; [exact A1|]. cbn [co cr cx]. rewrite C1, D1. auto.
    + right. eexists. split; [reflexivity|]. split; [exact A1|]. cbn [co cr cx chalt]. auto.
  - assert (O1 : ok_ye own e && forallb vis (yvars e) = true) by (destruct O as [O|O]; [exact O|discriminate O]). apply andb_true_iff in O1. destruct O1 as [O1 V].
    cbn [lift_atom]. destruct (lift e 0) as [[cs0 r] k'] eqn:L. cbn [fst ShNest.yact ShProg.cact]. apply ywith_ok; [eapply lift_ok; eauto|].
    intros v c1 d1 Q1. right. eexists. split; [reflexivity|]. apply eqv_chalt. exact Q1.
  - assert (O1 : ok_ye own e && forallb vis (yvars e) = true) by (destruct O as [O|O]; [discriminate O|exact O]). apply andb_true_iff in O1. destruct O1 as [O1 V].
    cbn [lift_atom]. destruct (lift e 0) as [[cs0 r] k'] eqn:L. cbn [fst ShNest.yact ShProg.cact]. apply ywith_ok; [eapply lift_ok; eauto|].
    intros v c1 d1 Q1. apply arel_norm. apply eqv_ret. exact Q1.
  - assert (O1 : ok_args own l && forallb vis (yvarss l) = true) by (destruct O as [O|O]; [discriminate O|exact O]). apply andb_true_iff in O1. destruct O1 as [O1 V2].
    cbn [lift_atom]. destruct (lifts l 0) as [[cs0 r] k'] eqn:L. cbn [fst ShNest.yact ShProg.cact].
    apply cargs_ok; [eapply lifts_ok; eauto|]. intros v c1 d1 Q1. destruct v; [|apply arel_stuck]. apply arel_norm, eqv_ret. exact Q1.
  - apply arel_norm. exact Q.
Qed.
Lemma tst_ok t : ok_ycond own glob tb t = true -> forall k c d, EQV c d -> ShLock.trel cstate cstate EQV EQV bad (ytst t c) (ctst (lift_cond tb t k) d).
Proof.
  induction t as [e|o a IHa b IHb]; cbn [ok_ycond ShNest.ytst lift_cond]; intros O k c d Q; apply andb_true_iff in O; destruct O as [O1 O2].
  - destruct (lift e k) as [[cs0 r] k'] eqn:L. cbn [ShProg.ctst]. pose proof (lift_ok e k cs0 r k' c d O1 O2 L Q) as G.
    destruct (yev e c) as [v R W c1|c1]; cbn [GV] in G.
    + destruct G as (d0 & s & R' & W' & E & V & Q1). rewrite E, V. eexists. split; [reflexivity|exact Q1].
    + destruct G as [G|(d1 & E & Q1)]; [left; exact G|]. right. exists d1. rewrite E. split; [reflexivity|exact Q1].
  - cbn [ShProg.ctst]. pose proof (IHa O1 k c d Q) as K. destruct (ytst a c) as [x c1|c1]; cbn [ShLock.trel] in K.
    + destruct K as (d1 & -> & Q1). destruct (Bool.eqb x o); [apply IHb; assumption|]. eexists. split; [reflexivity|exact Q1].
    + destruct K as [K|(d1 & -> & Q1)]; [left; exact K|]. right. exists d1. split; [reflexivity|exact Q1].
Qed.
Lemma val_ok e c d : ok_yval own glob tb e = true -> EQV c d -> ShLock.vrel cstate cstate EQV EQV bad (yswv e c) (cswv (lift_val tb e) d).
Proof.
  intros O Q. apply andb_true_iff in O. destruct O as [O1 O2]. unfold lift_val, ShNest.yswv, ShProg.cswv.
  destruct (lift e 0) as [[cs0 r] k'] eqn:L. cbn [fst snd]. pose proof (lift_ok e 0 cs0 r k' c d O1 O2 L Q) as G.
  destruct (yev e c) as [v R W c1|c1]; cbn [GV] in G.
  - destruct G as (d0 & s & R' & W' & E & V & Q1). rewrite E, V. eexists. split; [reflexivity|exact Q1].
  - destruct G as [G|(d1 & E & Q1)]; [left; exact G|]. right. exists d1. rewrite E. split; [reflexivity|exact Q1].
Qed.
End Nest4.
