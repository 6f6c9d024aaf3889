(** * Whole programs with calls in their expressions: the variables that a function leaves alone, simulation *)
From Coq Require Import ZArith List Lia Bool.
From Verif Require Import Base Ast Parse ShArith ShExpr ShCSem ShEqs ShSem ShMain ShStmt ShProg ShProg2 ShProg3 ShLock ShNest ShNest1 ShNest2 ShNest3 ShNest4 ShNest5.
Import ListNotations.
Open Scope Z_scope.
Local Notation length := List.length.

Definition hvars (h : hc) : list nat := hc_t h :: flat_map xvars (hc_a h).
Definition avars (a : atom) : list nat :=
  match a with
  | QExpr l e | QPutc l e | QExit l e | QRet l e => flat_map hvars l ++ xvars e
  | QAsg l x e => flat_map hvars l ++ xvars x ++ xvars e
  | QCall l d f a => flat_map hvars l ++ match d with Some x => xvars x | None => [] end ++ flat_map xvars a
  | QRetCall l f a => flat_map hvars l ++ flat_map xvars a
  | QRet0 => []
  end.
Fixpoint cvars (t : cond) : list nat := match t with CLeaf l e => flat_map hvars l ++ xvars e | CLog _ a b => cvars a ++ cvars b end.
Definition svars (v : sval) : list nat := flat_map hvars (fst v) ++ xvars (snd v).

(** ** Only the variables of a statement are written *)
Section Keep.
Variables (moff zsz : nat -> Z) (q : bool) (lim : nat) (okv : nat -> bool).
Variable cf : nat -> list Z -> cstate -> ares cstate.
Notation cval := (cval moff zsz q). Notation clval := (clval moff zsz q). Notation cargs := (cargs moff zsz q).
Definition KP (s t : store) : Prop := forall x, okv x = false -> t (LV x) = s (LV x).
Hypothesis CK : forall f vs d d1, cf f vs d = Norm d1 -> KP (cs d) (cs d1).
Lemma KP_refl s : KP s s. Proof. intros x _. reflexivity. Qed.
Lemma KP_trans s t u : KP s t -> KP t u -> KP s u.
Proof. intros H1 H2 x Hx. rewrite (H2 x Hx). apply H1. exact Hx. Qed.
Definition OD (x : nat) : Prop := okv x = true.
Lemma KP_same W s t : same W s t -> Forall (inD OD) W -> KP s t.
Proof.
  intros S F x Hx. apply S. intros HI. rewrite Forall_forall in F. specialize (F _ HI). cbn [inD] in F. unfold OD in F. congruence.
Qed.
Lemma KP_upd lo v s : inD OD lo -> KP s (upd lo v s).
Proof. intros H x Hx. rewrite upd_other; [reflexivity|]. intros <-. cbn [inD] in H. unfold OD in H. congruence. Qed.
Lemma allOD l : forallb okv l = true -> allD OD l.
Proof. intros H x Hx. rewrite forallb_forall in H. apply H. exact Hx. Qed.
Lemma cval_keep e s v s1 R W : forallb okv (xvars e) = true -> cval e s = Some (v, s1, R, W) -> KP s s1.
Proof.
  intros H E. assert (X : cev moff zsz e s = Some (v, s1, R, W)).
  { unfold ShProg.cval in E. destruct (cev moff zsz e s); [|discriminate]. destruct q; [|exact E]. destruct (hst moff zsz e s); [exact E|discriminate]. }
  apply (KP_same W); [eapply same_r; exact X|]. pose proof (proj1 (cev_wdom moff zsz OD e (allOD _ H)) s) as K. rewrite X in K. exact K.
Qed.
Lemma clval_keep e s v s1 R W : forallb okv (xvars e) = true -> clval e s = Some (v, s1, R, W) -> KP s s1 /\ inD OD v.
Proof.
  intros H E. pose proof (clval_clv moff zsz q _ _ _ E) as X. split.
  - apply (KP_same W); [eapply same_l; exact X|]. pose proof (proj2 (cev_wdom moff zsz OD e (allOD _ H)) s) as K. rewrite X in K. exact K.
  - pose proof (clval_dom moff zsz OD q e s (allOD _ H)) as K. rewrite E in K. exact K.
Qed.
Lemma cargs_keep l : forall s v s1 R W, forallb okv (flat_map xvars l) = true -> cargs l s = Some (v, s1, R, W) -> KP s s1.
Proof.
  induction l as [|e l IH]; cbn [flat_map ShProg.cargs]; intros s v s1 R W H E; [inversion E; apply KP_refl|].
  rewrite forallb_app in H. apply andb_true_iff in H. destruct H as [H1 H2]. destruct (cval e s) as [[[[v1 s2] R2] W2]|] eqn:E1; [|discriminate].
  destruct (cargs l s2) as [[[[vs s3] R3] W3]|] eqn:E2; [|discriminate]. destruct (race _ _ _ _); [discriminate|]. inversion E; subst.
  eapply KP_trans; [eapply cval_keep; eauto|eapply IH; eauto].
Qed.
Lemma ccalled_keep f vs d k d1 : ccalled cf f vs d k = Norm d1 ->
  exists d0 v, KP (cs d) (cs d0) /\ k v (CS (cs d0) (co d0) None (cx d0)) = Norm d1.
Proof. unfold ccalled. intros E. destruct (cf f vs d) as [d0|] eqn:Ef; [|discriminate]. exists d0, (cr d0). split; [eapply CK; exact Ef|exact E]. Qed.
Lemma chcs_keep2 l : forall d d1, forallb okv (flat_map hvars l) = true -> chcs moff zsz q cf l d = Norm d1 -> KP (cs d) (cs d1).
Proof.
  induction l as [|h l IH]; cbn [flat_map ShProg.chcs]; intros d d1 H E; [inversion E; apply KP_refl|].
  rewrite forallb_app in H. apply andb_true_iff in H. destruct H as [H1 H2]. destruct (chc moff zsz q cf h d) as [d2|] eqn:E1; [|discriminate].
  eapply KP_trans; [|apply (IH _ _ H2 E)]. unfold hvars in H1. cbn [forallb] in H1. apply andb_true_iff in H1. destruct H1 as [H1 H3].
  unfold ShProg.chc in E1. destruct (cargs (hc_a h) (cs d)) as [[[[vs s] R] W]|] eqn:Ea; [|discriminate].
  destruct (ccalled_keep _ _ _ _ _ E1) as (d0 & v & K0 & E3). unfold cstore in E3. destruct v; [|discriminate]. inversion E3; subst. cbn [cs sets].
  eapply KP_trans; [eapply cargs_keep; eauto|]. eapply KP_trans; [exact K0|]. apply KP_upd. exact H1.
Qed.
Lemma cwith_keep e d k d1 : forallb okv (xvars e) = true -> cwith moff zsz q e d k = Norm d1 -> exists v d0, KP (cs d) (cs d0) /\ k v d0 = Norm d1.
Proof.
  intros H E. unfold cwith in E. destruct (cval e (cs d)) as [[[[v s] R] W]|] eqn:E1; [|discriminate]. exists v, (sets s d). split; [|exact E].
  eapply cval_keep; eauto.
Qed.
Lemma cthen_keep a k d1 : cthen a k = Norm d1 -> exists d0, a = Norm d0 /\ k d0 = Norm d1.
Proof. destruct a; cbn; intros E; [eauto|discriminate]. Qed.
Lemma cact_keep a d d1 : forallb okv (avars a) = true -> cact moff zsz q lim cf a d = Norm d1 -> KP (cs d) (cs d1).
Proof.
  intros H E. destruct a as [l e|l x e|l [x|] f a|l e|l e|l e|l f a|]; cbn [avars] in H; cbn [cact] in E;
    rewrite ?forallb_app, ?andb_true_iff in H;
    try (apply cthen_keep in E; destruct E as (d0 & E0 & E); eapply KP_trans; [eapply chcs_keep2; [apply H|exact E0]|]).
  - destruct (cwith_keep e d0 _ _ (proj2 H) E) as (v & d2 & K & E2). inversion E2; subst. exact K.
  - destruct (cwith_keep (XAsg EQ x e) d0 (fun _ c => Norm c) d1) as (v & d2 & K & E2); [cbn [xvars]; rewrite forallb_app; apply andb_true_iff; apply H|exact E|].
    inversion E2; subst. exact K.
  - destruct (clval x (cs d0)) as [[[[lo s1] Ra] Wa]|] eqn:El; [|discriminate]. destruct (cargs a s1) as [[[[vs s2] Rb] Wb]|] eqn:Ea; [|discriminate].
    destruct (race _ _ _ _); [discriminate|]. destruct (ccalled_keep _ _ _ _ _ E) as (d2 & v & K & E2). destruct H as (H0 & H1 & H2).
    destruct (clval_keep _ _ _ _ _ _ H1 El) as [K1 L1]. eapply KP_trans; [exact K1|]. eapply KP_trans; [eapply cargs_keep; eauto|].
    eapply KP_trans; [exact K|]. unfold cstore in E2. destruct v; [|discriminate]. inversion E2; subst. cbn [cs sets]. apply KP_upd. exact L1.
  - destruct (cargs a (cs d0)) as [[[[vs s2] Rb] Wb]|] eqn:Ea; [|discriminate]. destruct (ccalled_keep _ _ _ _ _ E) as (d2 & v & K & E2).
    inversion E2; subst. cbn [cs]. eapply KP_trans; [eapply cargs_keep; [apply H|exact Ea]|exact K].
  - destruct (cwith_keep e d0 _ _ (proj2 H) E) as (v & d2 & K & E2). destruct (byte v); [|discriminate]. destruct (Nat.ltb _ _); [|discriminate]. inversion E2; subst. exact K.
  - destruct (cwith_keep e d0 _ _ (proj2 H) E) as (v & d2 & K & E2). discriminate.
  - destruct (cwith_keep e d0 _ _ (proj2 H) E) as (v & d2 & K & E2). inversion E2; subst. exact K.
  - destruct (cargs a (cs d0)) as [[[[vs s2] Rb] Wb]|] eqn:Ea; [|discriminate]. destruct (ccalled_keep _ _ _ _ _ E) as (d2 & v & K & E2).
    destruct v; [|discriminate]. inversion E2; subst. cbn [cs]. eapply KP_trans; [eapply cargs_keep; [apply H|exact Ea]|exact K].
  - inversion E. apply KP_refl.
Qed.
Lemma ctst_keep t : forall d b d1, forallb okv (cvars t) = true -> ctst moff zsz q cf t d = TVal b d1 -> KP (cs d) (cs d1).
Proof.
  induction t as [l e|o a IHa b IHb]; cbn [cvars ShProg.ctst]; intros d v d1 H E; rewrite forallb_app in H; apply andb_true_iff in H; destruct H as [H1 H2].
  - destruct (chcs moff zsz q cf l d) as [d0|] eqn:E0; [|discriminate]. destruct (cval e (cs d0)) as [[[[z s] R] W]|] eqn:Ev; [|discriminate]. inversion E; subst.
    eapply KP_trans; [eapply chcs_keep2; eauto|]. eapply cval_keep; eauto.
  - destruct (ctst moff zsz q cf a d) as [x d0|] eqn:E0; [|discriminate]. destruct (Bool.eqb x o).
    + eapply KP_trans; [eapply IHa; eauto|eapply IHb; eauto].
    + inversion E; subst. eapply IHa; eauto.
Qed.
Lemma cswv_keep v d z d1 : forallb okv (svars v) = true -> cswv moff zsz q cf v d = VVal z d1 -> KP (cs d) (cs d1).
Proof.
  unfold svars, cswv. intros H E. rewrite forallb_app in H. apply andb_true_iff in H. destruct H as [H1 H2].
  destruct (chcs moff zsz q cf (fst v) d) as [d0|] eqn:E0; [|discriminate]. destruct (cval (snd v) (cs d0)) as [[[[y s] R] W]|] eqn:Ev; [|discriminate]. inversion E; subst.
  eapply KP_trans; [eapply chcs_keep2; eauto|]. eapply cval_keep; eauto.
Qed.
Definition RK (s0 : store) (x y : cstate) : Prop := x = y /\ KP s0 (cs x).
Notation evs := (cevals atom cond sval pc cstate (cact moff zsz q lim cf) (ctst moff zsz q cf) (cswv moff zsz q cf) ckval).
Lemma body_keep l n d r : 
  everys atom cond sval pc (fun a => forallb okv (avars a)) (fun a => forallb okv (avars a)) (fun t => forallb okv (cvars t)) (fun v => forallb okv (svars v)) l = true ->
  evs n l d = Some r -> match r with CN d1 | CR d1 => KP (cs d) (cs d1) | _ => True end.
Proof.
  intros H E.
  pose proof (proj1 (proj2 (lockstep atom cond sval pc cstate cstate (fun a => forallb okv (avars a)) (fun a => forallb okv (avars a)) (fun t => forallb okv (cvars t)) (fun v => forallb okv (svars v)) ckval
    (cact moff zsz q lim cf) (cact moff zsz q lim cf) (ctst moff zsz q cf) (ctst moff zsz q cf) (cswv moff zsz q cf) (cswv moff zsz q cf)
    (RK (cs d)) (RK (cs d)) (fun _ _ => True) (fun _ => False)
    ltac:(intros a x y Ha [-> Hx]; destruct (cact moff zsz q lim cf a y) eqn:Ea; cbn [ShLock.arel]; [eexists; split; [reflexivity|]; split; [reflexivity|]; eapply KP_trans; [exact Hx|exact (cact_keep _ _ _ Ha Ea)]|right; eauto])
    ltac:(intros a x y Ha [-> Hx]; destruct (cact moff zsz q lim cf a y) eqn:Ea; cbn [ShLock.arel]; [eexists; split; [reflexivity|]; split; [reflexivity|]; eapply KP_trans; [exact Hx|exact (cact_keep _ _ _ Ha Ea)]|right; eauto])
    ltac:(intros a x y Ha [-> Hx]; destruct (ctst moff zsz q cf a y) eqn:Ea; cbn [ShLock.trel]; [eexists; split; [reflexivity|]; split; [reflexivity|]; eapply KP_trans; [exact Hx|exact (ctst_keep _ _ _ _ Ha Ea)]|right; eauto])
    ltac:(intros a x y Ha [-> Hx]; destruct (cswv moff zsz q cf a y) eqn:Ea; cbn [ShLock.vrel]; [eexists; split; [reflexivity|]; split; [reflexivity|]; eapply KP_trans; [exact Hx|exact (cswv_keep _ _ _ _ Ha Ea)]|right; eauto])
    ) l H) n d d (conj eq_refl (KP_refl _))) as K.
  rewrite E in K. destruct r; cbn [ShLock.crel] in K; try exact Logic.I; destruct K as (y & _ & _ & K); exact K.
Qed.
End Keep.

(** ** The variables of a lifted statement *)
Section Vars.
Variables (tb M : nat) (own glob : nat -> bool).
Notation lift := (lift tb). Notation lifts := (lifts tb). Notation vis := (vis own glob tb).
Definition okv (x : nat) : bool := vis x || (Nat.ltb tb x && Nat.leb x (tb + M)).
Lemma hmax_app a b : hmax tb (a ++ b) = Nat.max (hmax tb a) (hmax tb b).
Proof. induction a as [|h a IH]; [reflexivity|]. cbn [app hmax fold_right]. fold (hmax tb (a ++ b)). fold (hmax tb a). rewrite IH. lia. Qed.
Lemma hmax_in h l : In h l -> (hc_t h <= tb + hmax tb l)%nat.
Proof. induction l as [|g l IH]; intros []; cbn [hmax fold_right]; fold (hmax tb l); [subst; lia|]. specialize (IH H). lia. Qed.
Definition inc (l : list nat) (v : list nat) (cs : list hc) : Prop := incl l (v ++ map hc_t cs).
Lemma inc_le l v v' cs cs' : incl v v' -> incl cs cs' -> inc l v cs -> inc l v' cs'.
Proof.
  intros H1 H2 H x Hx. specialize (H x Hx). apply in_app_or in H. apply in_or_app. destruct H as [H|H]; [left; auto|right].
  apply in_map_iff in H. destruct H as (h & E & H). apply in_map_iff. eauto.
Qed.
Lemma inc_app a b v cs : inc a v cs -> inc b v cs -> inc (a ++ b) v cs.
Proof. intros H1 H2. apply incl_app; assumption. Qed.
Lemma lift_vars :
  (forall e k cs r k', lift e k = (cs, r, k') -> inc (xvars r) (yvars e) cs /\ inc (flat_map hvars cs) (yvars e) cs) /\
  (forall l k cs r k', lifts l k = (cs, r, k') -> inc (flat_map xvars r) (yvarss l) cs /\ inc (flat_map hvars cs) (yvarss l) cs).
Proof.
  assert (two : forall (va vb : list nat) ca cb xa xb, inc xa va ca /\ inc (flat_map hvars ca) va ca -> inc xb vb cb /\ inc (flat_map hvars cb) vb cb ->
    inc (xa ++ xb) (va ++ vb) (ca ++ cb) /\ inc (flat_map hvars (ca ++ cb)) (va ++ vb) (ca ++ cb)).
  { intros va vb ca cb xa xb [A1 A2] [B1 B2]. split; [|rewrite flat_map_app]; apply inc_app.
    - eapply inc_le; [| |exact A1]; apply incl_appl, incl_refl.
    - eapply inc_le; [| |exact B1]; apply incl_appr, incl_refl.
    - eapply inc_le; [| |exact A2]; apply incl_appl, incl_refl.
    - eapply inc_le; [| |exact B2]; apply incl_appr, incl_refl. }
  assert (call : forall t f v rs cs, inc (flat_map xvars rs) v cs /\ inc (flat_map hvars cs) v cs ->
    inc [t] v (cs ++ [HC t f rs]) /\ inc (flat_map hvars (cs ++ [HC t f rs])) v (cs ++ [HC t f rs])).
  { intros t f v rs cs [A B]. assert (X : inc [t] v (cs ++ [HC t f rs])).
    { intros x [<-|[]]. apply in_or_app. right. apply in_map_iff. exists (HC t f rs). split; [reflexivity|]. apply in_or_app. right. left. reflexivity. }
    split; [exact X|]. rewrite flat_map_app. apply inc_app.
    - eapply inc_le; [apply incl_refl|apply incl_appl, incl_refl|exact B].
    - cbn [flat_map hvars hc_t hc_a]. rewrite app_nil_r. apply (inc_app [t]); [exact X|].
      eapply inc_le; [apply incl_refl|apply incl_appl, incl_refl|exact A]. }
  apply ye_yes_ind; cbn [yvars yvarss].
  1: { intros e k cs r k' E. rewrite lift_eq in E. inversion E; subst. split; [apply incl_appl, incl_refl|apply incl_nil_l]. }
  1-6: intros; match goal with E : lift _ _ = _ |- _ => rewrite lift_eq in E; cbv beta iota in E; match type of E with context [lift ?a ?k] => destruct (lift a k) as [[? ?] ?] eqn:? end;
    inversion E; subst; cbn [xvars] end; eauto.
  1-3: intros; match goal with E : lift _ _ = _ |- _ => rewrite lift_eq in E; cbv beta iota in E; match type of E with context [lift ?a ?k] => destruct (lift a k) as [[? ?] ?] eqn:? end;
    match type of E with context [lift ?a ?k] => destruct (lift a k) as [[? ?] ?] eqn:? end; inversion E; subst; cbn [xvars] end; apply two; eauto.
  - intros t IH a b k cs r k' E. rewrite lift_eq in E. cbv beta iota in E. destruct (lift t k) as [[c0 r0] k0] eqn:L. inversion E; subst. cbn [xvars].
    destruct (IH _ _ _ _ L) as [A B]. split.
    + apply inc_app; [eapply inc_le; [apply incl_appl, incl_refl|apply incl_refl|exact A]|].
      intros x Hx. apply in_or_app. left. apply in_or_app. right. exact Hx.
    + eapply inc_le; [apply incl_appl, incl_refl|apply incl_refl|exact B].
  - intros f l IH k cs r k' E. rewrite lift_eq in E. cbv beta iota in E. destruct (lifts l k) as [[c0 r0] k0] eqn:L. injection E as <- <- <-. cbn [xvars].
    apply call. eauto.
  - intros x f l IH k cs r k' E. rewrite lift_eq in E. cbv beta iota in E. destruct (lifts l k) as [[c0 r0] k0] eqn:L. injection E as <- <- <-. cbn [xvars].
    destruct (call x f (yvarss l) r0 c0 (IH _ _ _ _ L)) as [A B]. split; (eapply inc_le; [apply incl_tl, incl_refl|apply incl_refl|]); eassumption.
  - intros k cs r k' E. rewrite lifts_eq in E. inversion E; subst. split; apply incl_nil_l.
  - intros a IHa l IHl k cs r k' E. rewrite lifts_eq in E. cbv beta iota in E. destruct (lift a k) as [[c0 r0] k0] eqn:L.
    destruct (lifts l k0) as [[c1 r1] k1] eqn:L1. inversion E; subst. cbn [flat_map]. apply two; eauto.
Qed.
Lemma okv_inc l v S k cs : inc l v cs -> forallb vis v = true -> TG tb S k cs -> incl S v -> (hmax tb cs <= M)%nat -> forallb okv l = true.
Proof.
  intros H V T I0 HM. apply forallb_forall. intros x Hx. specialize (H x Hx). apply in_app_or in H. unfold okv. rewrite forallb_forall in V.
  destruct H as [H|H]; [rewrite (V x H); reflexivity|]. apply in_map_iff in H. destruct H as (h & <- & H). unfold TG in T. rewrite Forall_forall in T.
  destruct (T h H) as [T1|T1]; [rewrite (V _ (I0 _ T1)); reflexivity|]. pose proof (hmax_in h cs H).
  rewrite (proj2 (Nat.ltb_lt tb (hc_t h))), (proj2 (Nat.leb_le (hc_t h) (tb + M))) by lia. apply orb_true_r.
Qed.
Lemma lift_okv e k cs r k' : lift e k = (cs, r, k') -> forallb vis (yvars e) = true -> (hmax tb cs <= M)%nat ->
  forallb okv (flat_map hvars cs) = true /\ forallb okv (xvars r) = true.
Proof.
  intros L V H. destruct (proj1 lift_vars _ _ _ _ _ L) as [A B]. destruct (proj1 (lift_facts tb) _ _ _ _ _ L) as (_ & T & _).
  split; eapply okv_inc; eauto; apply ysets_vars.
Qed.
Lemma lifts_okv l k cs r k' : lifts l k = (cs, r, k') -> forallb vis (yvarss l) = true -> (hmax tb cs <= M)%nat ->
  forallb okv (flat_map hvars cs) = true /\ forallb okv (flat_map xvars r) = true.
Proof.
  intros L V H. destruct (proj2 lift_vars _ _ _ _ _ L) as [A B]. destruct (proj2 (lift_facts tb) _ _ _ _ _ L) as (_ & T & _).
  split; eapply okv_inc; eauto; apply ysets_vars.
Qed.
Lemma vis_okv l : forallb vis l = true -> forallb okv l = true.
Proof. intros H. apply forallb_forall. intros x Hx. rewrite forallb_forall in H. unfold okv. rewrite (H x Hx). reflexivity. Qed.
Lemma atom_okv a : ok_yatom own glob tb a = true \/ ok_yret own glob tb a = true -> (hmax tb (acalls (fst (lift_atom tb a))) <= M)%nat ->
  forallb okv (avars (fst (lift_atom tb a))) = true.
Proof.
  intros O H. destruct a as [e|op l e|x f l|e|e|e|f l|]; cbn [ok_yatom ok_yret] in O.
  1,4,5,6: assert (O1 : ok_ye own e && forallb vis (yvars e) = true) by (destruct O as [O|O]; solve [exact O|discriminate O]); apply andb_true_iff in O1; destruct O1 as [_ V];
    cbn [lift_atom] in *; destruct (lift e 0) as [[cs0 r] k'] eqn:L; cbn [fst avars acalls] in *; destruct (lift_okv _ _ _ _ _ L V H); rewrite forallb_app; apply andb_true_iff; auto.
  - assert (V : forallb vis (xvars l) = true /\ forallb vis (yvars e) = true).
    { destruct O as [O|O]; [|discriminate]. destruct e; cbn [ok_yatom yvars] in *; rewrite ?andb_true_iff in O; tauto. }
    clear O. cbn [lift_atom] in *. destruct (lift e 0) as [[cs0 r] k'] eqn:L. cbn [fst] in *. destruct V as [V1 V2].
    assert (H' : (hmax tb cs0 <= M)%nat) by (destruct (op =? EQ); exact H). destruct (lift_okv _ _ _ _ _ L V2 H') as [A B]. apply vis_okv in V1.
    destruct (op =? EQ); cbn [avars xvars]; rewrite !forallb_app, A, B, V1; reflexivity.
  - assert (V : forallb vis match x with Some x => xvars x | None => [] end = true /\ forallb vis (yvarss l) = true).
    { destruct O as [O|O]; [|discriminate]. destruct x; cbn [ok_yatom] in *; rewrite ?andb_true_iff in O; cbn; tauto. }
    clear O. cbn [lift_atom] in *. destruct (lifts l 0) as [[cs0 r] k'] eqn:L. cbn [fst avars acalls] in *. destruct V as [V1 V2].
    destruct (lifts_okv _ _ _ _ _ L V2 H) as [A B]. apply vis_okv in V1. rewrite !forallb_app, A, B, V1. reflexivity.
  - assert (V : forallb vis (yvarss l) = true).
    { destruct O as [O|O]; [discriminate|]. rewrite ?andb_true_iff in O; tauto. }
    clear O. cbn [lift_atom] in *. destruct (lifts l 0) as [[cs0 r] k'] eqn:L. cbn [fst avars acalls] in *.
    destruct (lifts_okv _ _ _ _ _ L V H) as [A B]. rewrite !forallb_app, A, B. reflexivity.
  - reflexivity.
Qed.
Lemma cond_okv t k : ok_ycond own glob tb t = true -> (hmax tb (ccalls (lift_cond tb t k)) <= M)%nat -> forallb okv (cvars (lift_cond tb t k)) = true.
Proof.
  induction t as [e|o a IHa b IHb]; cbn [ok_ycond lift_cond]; intros O H; apply andb_true_iff in O; destruct O as [O1 O2].
  - destruct (lift e k) as [[cs0 r] k'] eqn:L. cbn [ccalls cvars] in *. destruct (lift_okv _ _ _ _ _ L O2 H) as [A B]. rewrite forallb_app, A, B. reflexivity.
  - cbn [ccalls cvars] in *. rewrite hmax_app in H. rewrite forallb_app. rewrite IHa, IHb by (auto; lia). reflexivity.
Qed.
Lemma val_okv e : ok_yval own glob tb e = true -> (hmax tb (fst (lift_val tb e)) <= M)%nat -> forallb okv (svars (lift_val tb e)) = true.
Proof.
  unfold ok_yval, lift_val, svars. intros O H. apply andb_true_iff in O. destruct O as [O1 O2]. destruct (lift e 0) as [[cs0 r] k'] eqn:L. cbn [fst snd] in *.
  destruct (lift_okv _ _ _ _ _ L O2 H) as [A B]. rewrite forallb_app, A, B. reflexivity.
Qed.
Definition lb (l : stmts yatom ycond ye pc) : stmts atom cond sval pc :=
  smaps (fun a => fst (lift_atom tb a)) (fun t => lift_cond tb (fst t) (snd t)) (lift_val tb) (numbers tb l).
Notation sm := (smap (fun a => fst (lift_atom tb a)) (fun t => lift_cond tb (fst t) (snd t)) (lift_val tb)).
Notation evy := (every yatom ycond ye pc (ok_yatom own glob tb) (ok_yret own glob tb) (ok_ycond own glob tb) (ok_yval own glob tb)).
Notation evys := (everys yatom ycond ye pc (ok_yatom own glob tb) (ok_yret own glob tb) (ok_ycond own glob tb) (ok_yval own glob tb)).
Notation eva := (every atom cond sval pc (fun a => forallb okv (avars a)) (fun a => forallb okv (avars a)) (fun t => forallb okv (cvars t)) (fun v => forallb okv (svars v))).
Notation evas := (everys atom cond sval pc (fun a => forallb okv (avars a)) (fun a => forallb okv (avars a)) (fun t => forallb okv (cvars t)) (fun v => forallb okv (svars v))).
Lemma body_okv :
  (forall c, evy c = true -> (hmax tb (scalls (sm (number tb c))) <= M)%nat -> eva (sm (number tb c)) = true) /\
  (forall l, evys l = true -> (hmax tb (scallss (lb l)) <= M)%nat -> evas (lb l) = true).
Proof.
  assert (OA : forall a, opt (ok_yatom own glob tb) a = true -> (hmax tb match option_map (fun a => fst (lift_atom tb a)) a with Some a => acalls a | None => [] end <= M)%nat ->
    opt (fun a => forallb okv (avars a)) (option_map (fun a => fst (lift_atom tb a)) a) = true).
  { intros [a|] O H; [|reflexivity]. apply atom_okv; [left; exact O|exact H]. }
  unfold lb. apply stmt_stmts_ind.
  - reflexivity.
  - intros a O H. apply atom_okv; [left; exact O|exact H].
  - intros t a IHa b IHb O H. rewrite (number_eq tb (SIf t a b)) in H |- *. cbv beta iota in H |- *. rewrite smap_eq in H |- *. cbv beta iota in H |- *. rewrite every_eq in O |- *. cbv beta iota in O |- *. rewrite scalls_eq in H. cbv beta iota in H. rewrite !hmax_app in H.
    rewrite !andb_true_iff in *. destruct O as [[O1 O2] O3]. split; [split|]; [apply cond_okv; [exact O1|cbn [fst snd at0] in *; lia]|apply IHa; [exact O2|lia]|apply IHb; [exact O3|lia]].
  - intros t b IHb O H. rewrite (number_eq tb (SWhile t b)) in H |- *. cbv beta iota in H |- *. rewrite smap_eq in H |- *. cbv beta iota in H |- *. rewrite every_eq in O |- *. cbv beta iota in O |- *. rewrite scalls_eq in H. cbv beta iota in H. rewrite !hmax_app in H.
    rewrite !andb_true_iff in *. destruct O as [O1 O2]. split; [apply cond_okv; [exact O1|cbn [fst snd at0] in *; lia]|apply IHb; [exact O2|lia]].
  - intros b IHb t O H. rewrite (number_eq tb (SDo b t)) in H |- *. cbv beta iota in H |- *. rewrite smap_eq in H |- *. cbv beta iota in H |- *. rewrite every_eq in O |- *. cbv beta iota in O |- *. rewrite scalls_eq in H. cbv beta iota in H. rewrite !hmax_app in H.
    rewrite !andb_true_iff in *. destruct O as [O1 O2]. split; [apply cond_okv; [exact O1|cbn [fst snd at0] in *; lia]|apply IHb; [exact O2|lia]].
  - intros i t e b IHb O H. rewrite (number_eq tb (SFor i t e b)) in H |- *. cbv beta iota in H |- *. rewrite smap_eq in H |- *. cbv beta iota in H |- *. rewrite every_eq in O |- *. cbv beta iota in O |- *. rewrite scalls_eq in H. cbv beta iota in H. rewrite !hmax_app in H.
    rewrite !andb_true_iff in *. destruct O as [[[O1 O2] O3] O4]. split; [split; [split|]|].
    + apply OA; [exact O1|lia].
    + destruct t as [t|]; [|reflexivity]. apply cond_okv; [exact O2|]. cbn [option_map fst snd] in *. lia.
    + apply OA; [exact O3|lia].
    + apply IHb; [exact O4|lia].
  - intros v l IHl O H. rewrite (number_eq tb (SSwitch v l)) in H |- *. cbv beta iota in H |- *. rewrite smap_eq in H |- *. cbv beta iota in H |- *. rewrite every_eq in O |- *. cbv beta iota in O |- *. rewrite scalls_eq in H. cbv beta iota in H. rewrite !hmax_app in H.
    rewrite !andb_true_iff in *. destruct O as [O1 O2]. split; [apply val_okv; [exact O1|lia]|apply IHl; [exact O2|lia]].
  - reflexivity.
  - reflexivity.
  - intros a O H. apply atom_okv; [right; exact O|exact H].
  - intros l IHl O H. exact (IHl O H).
  - intros l IHl O H. exact (IHl O H).
  - reflexivity.
  - intros ls c IHc r IHr O H. rewrite (numbers_eq tb (Scons ls c r)) in H |- *. cbv beta iota in H |- *. rewrite smaps_eq in H |- *. cbv beta iota in H |- *. rewrite everys_eq in O |- *. cbv beta iota in O |- *. rewrite scallss_eq in H. cbv beta iota in H. rewrite !hmax_app in H.
    rewrite !andb_true_iff in *. destruct O as [O1 O2]. split; [apply IHc; [exact O1|lia]|apply IHr; [exact O2|lia]].
Qed.
End Vars.
