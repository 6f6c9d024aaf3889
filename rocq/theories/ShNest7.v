(** * Whole programs with calls in their expressions: simulation of a program by its lifted form *)
From Coq Require Import ZArith List Lia Bool.
From Verif Require Import Base Ast Parse ShArith ShExpr ShCSem ShEqs ShSem ShMain ShStmt ShProg ShProg2 ShProg3 ShLock ShNest ShNest1 ShNest2 ShNest3 ShNest4 ShNest5 ShNest6.
Import ListNotations.
Open Scope Z_scope.
Local Notation length := List.length.

Lemma bind_other xs l : forall vs s, (forall x, In x xs -> l <> LV x) -> bind xs vs s l = s l.
Proof.
  induction xs as [|x xs IH]; intros [|v vs] s H; cbn [bind]; try reflexivity.
  rewrite IH by (intros y Hy; apply H; right; exact Hy). apply upd_other. apply H. left. reflexivity.
Qed.
Lemma bind_agr D xs : forall vs s t, agr D s t -> agr D (bind xs vs s) (bind xs vs t).
Proof. induction xs as [|x xs IH]; intros [|v vs] s t H; cbn [bind]; auto. apply IH, agr_upd. exact H. Qed.
Lemma bind_app xs ys vs ws s : length vs = length xs -> bind (xs ++ ys) (vs ++ ws) s = bind ys ws (bind xs vs s).
Proof.
  revert vs s. induction xs as [|x xs IH]; intros [|v vs] s H; try discriminate H; [reflexivity|]. cbn [app bind]. apply IH. cbn [length] in H. lia.
Qed.
Lemma existsb_in x l : existsb (Nat.eqb x) l = true <-> In x l.
Proof.
  rewrite existsb_exists. split.
  - intros (y & H & E). apply Nat.eqb_eq in E. subst. exact H.
  - intros H. exists x. split; [exact H|apply Nat.eqb_refl].
Qed.

Section Sim.
Variables (moff zsz : nat -> Z) (q : bool) (lim tb : nat) (glob : nat -> bool).
Variable prg : nat -> option yfun.
Hypothesis OK : forall f d, prg f = Some d -> ok_yfun tb glob d.
Definition prg2 (f : nat) : option fdef := option_map (lift_fun tb) (prg f).
Notation EQV := (EQV tb). Notation arelN := (ShLock.arel cstate cstate EQV bad EQV). Notation private := (private tb glob).
Notation ycall := (ycall moff zsz q lim prg). Notation ccall := (ccall moff zsz q lim prg2).

Lemma enter_other d vs s x : islocal d (LV x) = false -> enter d vs s (LV x) = s (LV x).
Proof.
  intros H. cbn [islocal] in H. unfold enter. rewrite !bind_other; [reflexivity| |]; intros y Hy [= ->];
    (assert (X : existsb (Nat.eqb y) (fparams d ++ flocals d) = true) by (apply existsb_in, in_or_app; auto)); congruence.
Qed.
Lemma temps x m : In x (map (fun k => (tb + k)%nat) (seq 1 m)) <-> (tb < x <= tb + m)%nat.
Proof.
  rewrite in_map_iff. split.
  - intros (k & <- & H). apply in_seq in H. lia.
  - intros H. exists (x - tb)%nat. split; [lia|]. apply in_seq. lia.
Qed.
Lemma lift_local d x : islocal (lift_fun tb d) (LV x) =
  owns d x || (Nat.ltb tb x && Nat.leb x (tb + hmax tb (scallss (lb tb (ybody d))))).
Proof.
  unfold lift_fun. cbn [islocal fparams flocals]. rewrite app_assoc, existsb_app. unfold owns. f_equal. apply eq_true_iff_eq.
  rewrite existsb_in, temps, andb_true_iff, Nat.ltb_lt, Nat.leb_le. reflexivity.
Qed.
(* a call leaves the variables alone that are not global *)
Lemma call_keep n : forall f vs d d1, ccall n f vs d = Norm d1 -> forall x, private x -> cs d1 (LV x) = cs d (LV x).
Proof.
  induction n as [|n IH]; intros f vs d d1 E x Px; [discriminate|]. cbn [ShProg.ccall] in E. unfold prg2 in E at 1.
  destruct (prg f) as [d0|] eqn:Ep; [|discriminate]. cbn [option_map] in E. destruct (Nat.eqb _ _); [|discriminate].
  destruct (OK f d0 Ep) as [HL HB]. set (M := hmax tb (scallss (lb tb (ybody d0)))).
  assert (CK : forall f vs d d1, ccall n f vs d = Norm d1 -> KP (okv tb M (owns d0) glob) (cs d) (cs d1)).
  { intros f0 vs0 d2 d3 E0 y Hy. apply (IH _ _ _ _ E0). unfold okv, vis in Hy. apply orb_false_iff in Hy. destruct Hy as [Hy _].
    apply andb_false_iff in Hy. destruct Hy as [Hy|Hy]; [left; apply Nat.leb_gt in Hy; exact Hy|right; apply orb_false_iff in Hy; apply Hy]. }
  pose proof (body_keep moff zsz q lim (okv tb M (owns d0) glob) (ccall n) CK (lb tb (ybody d0)) (S n) (sets (enter (lift_fun tb d0) vs (cs d)) d)) as BK.
  change (fbody (lift_fun tb d0)) with (lb tb (ybody d0)) in E.
  destruct (cevals _ _ _ _ _ _ _ _ _ _ _ _) as [r|]; [|discriminate]. specialize (BK r).
  assert (K : match r with CN d2 | CR d2 => KP (okv tb M (owns d0) glob) (enter (lift_fun tb d0) vs (cs d)) (cs d2) | _ => True end).
  { apply BK; [|reflexivity]. apply (proj2 (body_okv tb M (owns d0) glob)); [exact HB|lia]. }
  clear BK.
  assert (G : forall d2, KP (okv tb M (owns d0) glob) (enter (lift_fun tb d0) vs (cs d)) (cs d2) -> leave (lift_fun tb d0) (cs d) (cs d2) (LV x) = cs d (LV x)).
  { intros d2 K2. unfold leave. destruct (islocal (lift_fun tb d0) (LV x)) eqn:El; [reflexivity|]. rewrite K2; [apply enter_other; exact El|].
    rewrite lift_local in El. fold M in El. apply orb_false_iff in El. destruct El as [E1 E2]. unfold okv, vis. rewrite E1, E2, orb_false_r. cbn [orb].
    destruct Px as [Px|Px]; [|rewrite Px; apply andb_false_r]. rewrite (proj2 (Nat.leb_gt x tb) Px). reflexivity. }
  destruct r as [d2|d2|d2|d2|d2]; try discriminate; inversion E; subst; cbn [cs sets]; apply G; exact K.
Qed.
Lemma enter_eqv d vs s t : length vs = length (yparams d) -> agr (DT tb) s t -> agr (DT tb) (enter (frame d) vs s) (enter (lift_fun tb d) vs t).
Proof.
  intros L H. unfold enter, frame, lift_fun. cbn [fparams flocals]. rewrite map_app, bind_app by apply map_length.
  intros l Hl. rewrite (bind_other (map _ _) l); [|intros x Hx ->; apply temps in Hx; cbn [inD] in Hl; unfold DT in Hl; lia].
  exact (bind_agr (DT tb) _ _ _ _ (bind_agr (DT tb) _ _ _ _ H) l Hl).
Qed.
Lemma leave_eqv d s0 t0 s1 t1 : agr (DT tb) s0 t0 -> agr (DT tb) s1 t1 -> agr (DT tb) (leave (frame d) s0 s1) (leave (lift_fun tb d) t0 t1).
Proof.
  intros H0 H1 [x|z] Hl; [|apply H1; exact Hl]. unfold leave. rewrite lift_local. unfold owns. change (islocal (frame d) (LV x)) with (existsb (Nat.eqb x) (yparams d ++ ylocals d)).
  cbn [inD] in Hl. unfold DT in Hl. rewrite (proj2 (Nat.ltb_ge tb x)) by exact Hl. cbn [andb]. rewrite orb_false_r.
  destruct (existsb _ _); [apply H0|apply H1]; exact Hl.
Qed.
Theorem call_lift n : forall f vs c d, EQV c d -> arelN (ycall n f vs c) (ccall n f vs d).
Proof.
  induction n as [|n IH]; intros f vs c d Q.
  { right. eexists. split; [reflexivity|]. apply eqv_chalt. exact Q. }
  cbn [ShNest.ycall ShProg.ccall]. unfold prg2 at 1. destruct (prg f) as [d0|] eqn:Ep; cbn [option_map]; [|left; reflexivity].
  change (fparams (lift_fun tb d0)) with (yparams d0). destruct (Nat.eqb (length vs) (length (yparams d0))) eqn:EL; [|left; reflexivity].
  apply Nat.eqb_eq in EL. destruct (OK f d0 Ep) as [HL HB].
  assert (OWN : forall x, owns d0 x = true -> (x <= tb)%nat /\ glob x = false) by (intros x Hx; apply HL, existsb_in; exact Hx).
  pose proof (proj1 (proj2 (lockstep yatom (ycond * nat) ye pc cstate cstate (ok_yatom (owns d0) glob tb) (ok_yret (owns d0) glob tb) (fun t => ok_ycond (owns d0) glob tb (fst t)) (ok_yval (owns d0) glob tb) ckval
    (yact moff zsz q lim (ycall n)) (fun a => cact moff zsz q lim (ccall n) (fst (lift_atom tb a)))
    (fun t => ytst moff zsz q (ycall n) (fst t)) (fun t => ctst moff zsz q (ccall n) (lift_cond tb (fst t) (snd t)))
    (yswv moff zsz q (ycall n)) (fun v => cswv moff zsz q (ccall n) (lift_val tb v)) EQV EQV EQV bad
    (fun a x y Ha Hq => act_ok moff zsz q lim tb (owns d0) glob (ycall n) (ccall n) IH (call_keep n) OWN a x y (or_introl Ha) Hq)
    (fun a x y Ha Hq => act_ok moff zsz q lim tb (owns d0) glob (ycall n) (ccall n) IH (call_keep n) OWN a x y (or_intror Ha) Hq)
    (fun t x y Ht Hq => tst_ok moff zsz q tb (owns d0) glob (ycall n) (ccall n) IH (call_keep n) OWN (fst t) Ht (snd t) x y Hq)
    (fun v x y Hv Hq => val_ok moff zsz q tb (owns d0) glob (ycall n) (ccall n) IH (call_keep n) OWN v x y Hv Hq))
    (numbers tb (ybody d0)) (eq_trans (proj2 (every_number tb _ _ _ _) _) HB))
    (S n) (sets (enter (frame d0) vs (cs c)) c) (sets (enter (lift_fun tb d0) vs (cs d)) d) (eqv_sets tb _ _ _ _ Q (enter_eqv d0 vs _ _ EL (proj1 Q)))) as K.
  pose proof (proj1 (proj2 (eval_map yatom (ycond * nat) ye pc yatom ycond ye cstate (fun a => a) fst (fun v => v)
    (yact moff zsz q lim (ycall n)) (ytst moff zsz q (ycall n)) (yswv moff zsz q (ycall n)) ckval) (numbers tb (ybody d0))) (S n) (sets (enter (frame d0) vs (cs c)) c)) as E1.
  rewrite (proj2 (unnumber tb)) in E1.
  pose proof (proj1 (proj2 (eval_map yatom (ycond * nat) ye pc atom cond sval cstate (fun a => fst (lift_atom tb a)) (fun t => lift_cond tb (fst t) (snd t)) (lift_val tb)
    (cact moff zsz q lim (ccall n)) (ctst moff zsz q (ccall n)) (cswv moff zsz q (ccall n)) ckval) (numbers tb (ybody d0))) (S n) (sets (enter (lift_fun tb d0) vs (cs d)) d)) as E2.
  change (fbody (lift_fun tb d0)) with (smaps (fun a => fst (lift_atom tb a)) (fun t => lift_cond tb (fst t) (snd t)) (lift_val tb) (numbers tb (ybody d0))).
  rewrite E1, E2. clear E1 E2.
  match type of K with ShLock.crel _ _ _ _ _ _ ?a ?b => destruct a as [[x|x|x|x|x]|] end; cbn [ShLock.crel] in K.
  - destruct K as (y & -> & K). exists (sets (leave (lift_fun tb d0) (cs d) (cs y)) y). split; [reflexivity|]. apply eqv_sets; [exact K|]. apply leave_eqv; [apply Q|apply K].
  - left. reflexivity.
  - left. reflexivity.
  - destruct K as (y & -> & K). exists (sets (leave (lift_fun tb d0) (cs d) (cs y)) y). split; [reflexivity|]. apply eqv_sets; [exact K|]. apply leave_eqv; [apply Q|apply K].
  - destruct K as [K|(y & -> & K)]; [left; exact K|right; eauto].
  - rewrite K. right. eexists. split; [reflexivity|]. apply eqv_chalt. exact Q.
Qed.
Theorem run_lift n main s : snd (yrun moff zsz q lim prg n main s) <> Stuck -> crun moff zsz q lim prg2 n main s = yrun moff zsz q lim prg n main s.
Proof.
  unfold yrun, crun. assert (Q : EQV (CS s [] None Running) (CS s [] None Running)) by (split; [intros l _; reflexivity|auto]).
  pose proof (call_lift n main [] _ _ Q) as K. destruct (ycall n main [] _) as [c|c]; cbn [ShLock.arel] in K.
  - destruct K as (d & -> & A & B & C & D). rewrite B, C. reflexivity.
  - intros H. destruct K as [K|(d & -> & A & B & C & D)]; [exfalso; apply H; exact K|]. rewrite B, D. reflexivity.
Qed.
End Sim.

(** ** The stricter reading of C is C *)
Section Strict.
Variables (moff zsz : nat -> Z) (lim : nat).
Variables (cf1 cf2 : nat -> list Z -> cstate -> ares cstate).
Definition SAME (a b : cstate) : Prop := a = b.
Notation arelE := (ShLock.arel cstate cstate SAME bad SAME).
Hypothesis CF : forall f vs c, arelE (cf1 f vs c) (cf2 f vs c).
Definition yle (a b : yres) : Prop := a = b \/ exists c, a = YHalt c /\ bad c.
Definition yles (a b : yrs) : Prop := a = b \/ exists c, a = YHalts c /\ bad c.
Notation yev1 := (yev moff zsz true cf1). Notation yev2 := (yev moff zsz false cf2).
Notation yevs1 := (yevs moff zsz true cf1). Notation yevs2 := (yevs moff zsz false cf2).
Lemma yle_refl a : yle a a. Proof. left. reflexivity. Qed.
Lemma yle_bad c b : bad c -> yle (YHalt c) b. Proof. right. eauto. Qed.
Lemma yle_bind a b k1 k2 : yle a b -> (forall v R W c, yle (k1 v R W c) (k2 v R W c)) -> yle (ybind a k1) (ybind b k2).
Proof. intros [->|(c & -> & B)] K; [|apply yle_bad; exact B]. destruct b; [apply K|apply yle_refl]. Qed.
Lemma cval_le e s x : cval moff zsz true e s = Some x -> cval moff zsz false e s = Some x.
Proof. unfold cval. destruct (cev moff zsz e s); [|discriminate]. destruct (hst moff zsz e s); congruence. Qed.
Lemma clval_le e s x : clval moff zsz true e s = Some x -> clval moff zsz false e s = Some x.
Proof. unfold clval. destruct (clv moff zsz e s); [|discriminate]. destruct (hlv moff zsz e s); congruence. Qed.
Lemma yx_le e c : yle (yx moff zsz true e c) (yx moff zsz false e c).
Proof. unfold yx. destruct (cval moff zsz true e (cs c)) as [x|] eqn:E; [rewrite (cval_le _ _ _ E); apply yle_refl|apply yle_bad; reflexivity]. Qed.
Lemma ycall_le f a b (k : Z -> list loc -> list loc -> cstate -> yres) : yles a b ->
  yle (match a with YVals vs R W c => match cf1 f vs c with Norm c1 => ybind (yret (cr c1) R W (CS (cs c1) (co c1) None (cx c1))) k | Halt c1 => YHalt c1 end | YHalts c => YHalt c end)
      (match b with YVals vs R W c => match cf2 f vs c with Norm c1 => ybind (yret (cr c1) R W (CS (cs c1) (co c1) None (cx c1))) k | Halt c1 => YHalt c1 end | YHalts c => YHalt c end).
Proof.
  intros [->|(c & -> & B)]; [|apply yle_bad; exact B]. destruct b as [vs R W c|c]; [|apply yle_refl].
  pose proof (CF f vs c) as K. destruct (cf1 f vs c) as [c1|c1]; cbn [ShLock.arel] in K.
  - destruct K as (y & -> & <-). apply yle_refl.
  - destruct K as [K|(y & -> & <-)]; [apply yle_bad; exact K|apply yle_refl].
Qed.
Lemma ybind_id y : ybind y YVal = y. Proof. destruct y; reflexivity. Qed.
Theorem yev_le : (forall e c, yle (yev1 e c) (yev2 e c)) /\ (forall l c, yles (yevs1 l c) (yevs2 l c)).
Proof.
  apply ye_yes_ind.
  - intros e c. apply yx_le.
  - intros a IH c. apply IH.
  - intros a IH c. apply IH.
  - intros a IH c. apply IH.
  - intros op a IH c. apply yle_bind; [apply IH|]. intros. apply yle_refl.
  - intros a IH c. apply yle_bind; [apply IH|]. intros. apply yle_refl.
  - intros a IH k c. apply yle_bind; [apply IH|]. intros. apply yle_refl.
  - intros a IHa b IHb c. apply yle_bind; [apply IHa|]. intros. apply yle_bind; [apply IHb|]. intros. apply yle_refl.
  - intros op a IHa b IHb c. apply yle_bind; [apply IHa|]. intros. apply yle_bind; [apply IHb|]. intros. apply yle_refl.
  - intros a IHa b IHb c. apply yle_bind; [apply IHa|]. intros. apply yle_bind; [apply IHb|]. intros. apply yle_refl.
  - intros t IH a b c. apply yle_bind; [apply IH|]. intros. apply yle_bind; [apply yx_le|]. intros. apply yle_refl.
  - intros f l IH c. pose proof (ycall_le f _ _ YVal (IH c)) as K.
    change (yev1 (YCall f l) c) with (match yevs1 l c with YVals vs R W c => match cf1 f vs c with Norm c1 => yret (cr c1) R W (CS (cs c1) (co c1) None (cx c1)) | Halt c1 => YHalt c1 end | YHalts c => YHalt c end).
    change (yev2 (YCall f l) c) with (match yevs2 l c with YVals vs R W c => match cf2 f vs c with Norm c1 => yret (cr c1) R W (CS (cs c1) (co c1) None (cx c1)) | Halt c1 => YHalt c1 end | YHalts c => YHalt c end).
    destruct (yevs1 l c) as [vs1 R1 W1 c1|c1]; destruct (yevs2 l c) as [vs2 R2 W2 c2|c2];
      repeat match goal with |- context [cf1 ?f ?v ?c] => destruct (cf1 f v c) | |- context [cf2 ?f ?v ?c] => destruct (cf2 f v c) end; rewrite ?ybind_id in K; exact K.
  - intros x f l IH c. exact (ycall_le f _ _ (fun v R W c => YVal v R (LV x :: W) (sets (upd (LV x) v (cs c)) c)) (IH c)).
  - intros c. left. reflexivity.
  - intros a IHa l IHl c.
    change (yevs1 (Ycons a l) c) with (match yev1 a c with
      | YVal v Ra Wa c1 => match yevs1 l c1 with
          | YVals vs Rb Wb c2 => if race Ra Wa Rb Wb then YHalts (chalt Stuck c2) else YVals (v :: vs) (Ra ++ Rb) (Wa ++ Wb) c2
          | YHalts c2 => YHalts c2 end
      | YHalt c1 => YHalts c1 end).
    change (yevs2 (Ycons a l) c) with (match yev2 a c with
      | YVal v Ra Wa c1 => match yevs2 l c1 with
          | YVals vs Rb Wb c2 => if race Ra Wa Rb Wb then YHalts (chalt Stuck c2) else YVals (v :: vs) (Ra ++ Rb) (Wa ++ Wb) c2
          | YHalts c2 => YHalts c2 end
      | YHalt c1 => YHalts c1 end).
    destruct (IHa c) as [->|(c1 & -> & B)]; [|right; eauto]. destruct (yev2 a c) as [v Ra Wa c1|c1]; [|left; reflexivity].
    destruct (IHl c1) as [->|(c2 & -> & B)]; [|right; eauto]. left. reflexivity.
Qed.
Lemma ywith_le a b k : yle a b -> arelE (ywith a k) (ywith b k).
Proof.
  intros [->|(c & -> & B)]; [|left; exact B]. destruct b as [v R W c|c]; cbn [ywith]; [|right; exists c; split; reflexivity].
  destruct (k v c); [|right]; eexists; split; reflexivity.
Qed.
Lemma arel_refl a : arelE a a. Proof. destruct a; [|right]; eexists; split; reflexivity. Qed.
Lemma called_le f vs c k : arelE (ccalled cf1 f vs c k) (ccalled cf2 f vs c k).
Proof.
  unfold ccalled. pose proof (CF f vs c) as K. destruct (cf1 f vs c) as [c1|c1]; cbn [ShLock.arel] in K.
  - destruct K as (y & -> & <-). apply arel_refl.
  - destruct K as [K|(y & -> & <-)]; [left; exact K|apply arel_refl].
Qed.
Lemma yact_le a c : arelE (yact moff zsz true lim cf1 a c) (yact moff zsz false lim cf2 a c).
Proof.
  destruct a as [e|op l e|[x|] f l|e|e|e|f l|].
  - apply ywith_le, yev_le.
  - assert (X : forall e, arelE
      (match clval moff zsz true l (cs c) with
      | Some (lo, s1, Ra, Wa) =>
          match yev1 e (sets s1 c) with
          | YVal v Rb Wb c2 =>
              if race Ra Wa Rb Wb || mem lo (Wa ++ Wb) then Halt (chalt Stuck c2)
              else match (if op =? EQ then Some v
                          else match asg_op op with Some o => carith o (cs c2 lo) v | None => None end) with
                   | Some w => Norm (sets (upd lo w (cs c2)) c2)
                   | None => Halt (chalt Stuck c2)
                   end
          | YHalt c2 => Halt c2
          end
      | None => Halt (chalt Stuck c)
      end)
      (match clval moff zsz false l (cs c) with
      | Some (lo, s1, Ra, Wa) =>
          match yev2 e (sets s1 c) with
          | YVal v Rb Wb c2 =>
              if race Ra Wa Rb Wb || mem lo (Wa ++ Wb) then Halt (chalt Stuck c2)
              else match (if op =? EQ then Some v
                          else match asg_op op with Some o => carith o (cs c2 lo) v | None => None end) with
                   | Some w => Norm (sets (upd lo w (cs c2)) c2)
                   | None => Halt (chalt Stuck c2)
                   end
          | YHalt c2 => Halt c2
          end
      | None => Halt (chalt Stuck c)
      end)).
    { intros e0. destruct (clval moff zsz true l (cs c)) as [[[[lo s1] Ra] Wa]|] eqn:E; [|left; reflexivity]. rewrite (clval_le _ _ _ E).
      destruct (proj1 yev_le e0 (sets s1 c)) as [->|(c1 & -> & B)]; [apply arel_refl|left; exact B]. }
    destruct e; try (apply ywith_le, yx_le); apply X.
  - cbn [yact]. destruct (clval moff zsz true x (cs c)) as [[[[lo s1] Ra] Wa]|] eqn:E; [|left; reflexivity]. rewrite (clval_le _ _ _ E).
    destruct (proj2 yev_le l (sets s1 c)) as [->|(c1 & -> & B)]; [|left; exact B]. destruct (yevs2 l (sets s1 c)) as [vs R W c1|c1]; [|apply arel_refl].
    destruct (race _ _ _ _); [apply arel_refl|apply called_le].
  - cbn [yact]. destruct (proj2 yev_le l c) as [->|(c1 & -> & B)]; [|left; exact B]. destruct (yevs2 l c) as [vs R W c1|c1]; [apply called_le|apply arel_refl].
  - apply ywith_le, yev_le.
  - apply ywith_le, yev_le.
  - apply ywith_le, yev_le.
  - cbn [yact]. destruct (proj2 yev_le l c) as [->|(c1 & -> & B)]; [|left; exact B]. destruct (yevs2 l c) as [vs R W c1|c1]; [apply called_le|apply arel_refl].
  - apply arel_refl.
Qed.
Lemma ytst_le t : forall c, ShLock.trel cstate cstate SAME SAME bad (ytst moff zsz true cf1 t c) (ytst moff zsz false cf2 t c).
Proof.
  induction t as [e|o a IHa b IHb]; intros c; cbn [ytst].
  - destruct (proj1 yev_le e c) as [->|(c1 & -> & B)]; [|left; exact B]. destruct (yev2 e c); [|right]; eexists; split; reflexivity.
  - specialize (IHa c). destruct (ytst moff zsz true cf1 a c) as [v c1|c1]; cbn [ShLock.trel] in IHa.
    + destruct IHa as (y & -> & H). unfold SAME in H. subst y. destruct (Bool.eqb v o); [apply IHb|]. eexists; split; reflexivity.
    + destruct IHa as [H|(y & -> & H)]; [left; exact H|right]. eexists; split; [reflexivity|exact H].
Qed.
Lemma yswv_le e c : ShLock.vrel cstate cstate SAME SAME bad (yswv moff zsz true cf1 e c) (yswv moff zsz false cf2 e c).
Proof.
  unfold yswv. destruct (proj1 yev_le e c) as [->|(c1 & -> & B)]; [|left; exact B]. destruct (yev2 e c); [|right]; eexists; split; reflexivity.
Qed.
End Strict.
Section Strict2.
Variables (moff zsz : nat -> Z) (lim : nat) (prg : nat -> option yfun).
Notation arelE := (ShLock.arel cstate cstate SAME bad SAME).
Lemma every_true {A T V P} : (forall c : stmt A T V P, every A T V P (fun _ => true) (fun _ => true) (fun _ => true) (fun _ => true) c = true) /\
  (forall l : stmts A T V P, everys A T V P (fun _ => true) (fun _ => true) (fun _ => true) (fun _ => true) l = true).
Proof.
  apply stmt_stmts_ind; intros; first [etransitivity; [apply every_eq|]|etransitivity; [apply everys_eq|]]; cbv beta iota;
    repeat match goal with H : _ = true |- _ => rewrite H; clear H end; try reflexivity.
  destruct i, t, e; reflexivity.
Qed.
Theorem ycall_strict n : forall f vs c, arelE (ycall moff zsz true lim prg n f vs c) (ycall moff zsz false lim prg n f vs c).
Proof.
  induction n as [|n IH]; intros f vs c; [apply arel_refl|]. cbn [ycall]. destruct (prg f) as [d|]; [|apply arel_refl]. destruct (Nat.eqb _ _); [|apply arel_refl].
  pose proof (proj1 (proj2 (lockstep yatom ycond ye pc cstate cstate (fun _ => true) (fun _ => true) (fun _ => true) (fun _ => true) ckval
    (yact moff zsz true lim (ycall moff zsz true lim prg n)) (yact moff zsz false lim (ycall moff zsz false lim prg n))
    (ytst moff zsz true (ycall moff zsz true lim prg n)) (ytst moff zsz false (ycall moff zsz false lim prg n))
    (yswv moff zsz true (ycall moff zsz true lim prg n)) (yswv moff zsz false (ycall moff zsz false lim prg n)) SAME SAME SAME bad
    ltac:(intros a x y _ <-; apply yact_le; exact IH) ltac:(intros a x y _ <-; apply yact_le; exact IH)
    ltac:(intros a x y _ <-; apply ytst_le; exact IH) ltac:(intros a x y _ <-; apply yswv_le; exact IH))
    (ybody d) (proj2 every_true (ybody d))) (S n) (sets (enter (frame d) vs (cs c)) c) _ eq_refl) as K.
  match type of K with ShLock.crel _ _ _ _ _ _ ?a ?b => destruct a as [[x|x|x|x|x]|] end; cbn [ShLock.crel] in K;
    try (destruct K as (y & -> & <-); apply arel_refl); [|rewrite K; apply arel_refl].
  destruct K as [K|(y & -> & <-)]; [left; exact K|apply arel_refl].
Qed.
Theorem yrun_le n main s : snd (yrun moff zsz true lim prg n main s) <> Stuck -> yrun moff zsz false lim prg n main s = yrun moff zsz true lim prg n main s.
Proof.
  unfold yrun. pose proof (ycall_strict n main [] (CS s [] None Running)) as K. destruct (ycall moff zsz true lim prg n main [] _) as [c|c]; cbn [ShLock.arel] in K.
  - destruct K as (y & -> & H). unfold SAME in H. subst y. reflexivity.
  - intros H. destruct K as [K|(y & -> & X)]; [exfalso; apply H; exact K|]. unfold SAME in X. subst y. reflexivity.
Qed.
End Strict2.
