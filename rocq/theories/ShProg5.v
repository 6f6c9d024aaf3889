(** * Whole programs compiled to shell scripts: functions *)
From Coq Require Import ZArith List Lia Bool.
From Verif Require Import Base Numerals Output Ast Parse ShArith ShExpr ShCSem ShEqs ShFacts ShFacts2 ShSyn ShSem ShMain ShMain6 ShStmt PropShStmt ShProg ShLock ShProg1 ShProg2 ShProg3 ShProg4.
From Verif Require ShCall ShCallProof.
Import ListNotations.
Open Scope Z_scope.
Local Notation length := List.length.

Section Sim.
Variables (N : Z) (sev : list item -> vars -> option (list Z * vars)) (ro : name -> option Z).
Variables (vn mn zn : nat -> name) (moff zsz : nat -> Z) (lim : nat).
Hypothesis SET : setting N sev ro vn mn zn moff zsz.
Notation nm := (nm vn). Notation keep := (keep ro vn). Notation sim := (sim ro vn). Notation simR := (simR ro vn).
Let NK : names_ok vn mn zn moff zsz := st_names _ _ _ _ _ _ _ _ SET.
Notation scmd := (scmd sev ro lim).

(** ** Saving *)
Definition lets (L : list (nat * Z)) (g : vars) : vars := fold_left (fun g p => slet (vn (fst p)) (snd p) g) L g.
Definition binds (L : list (nat * Z)) (s : store) : store := fold_left (fun s p => upd (LV (fst p)) (snd p) s) L s.
Lemma params_run callf r ps xs : forall k h pre vs, ps = pre ++ vs -> length pre = (k - 2)%nat -> (2 <= k)%nat -> length vs = length xs ->
  runk kcmd hstate (scmd callf r ps) (let_params vn k xs) h = Norm (setg (lets (combine xs vs) (hg h)) h).
Proof.
  induction xs as [|x xs IH]; intros k h pre vs Ep El Hk Ev.
  - destruct vs; [|discriminate]. cbn. destruct h; reflexivity.
  - destruct vs as [|v vs]; [discriminate|]. cbn [let_params runk ShProg.scmd].
    assert (En : nth_error ps (k - 2) = Some v) by (rewrite Ep, nth_error_app2 by lia; rewrite El, Nat.sub_diag; reflexivity).
    rewrite En.
    rewrite (IH (S k) _ (pre ++ [v]) vs).
    + cbn [combine lets fold_left fst snd hg setg]. reflexivity.
    + rewrite <- app_assoc. exact Ep.
    + rewrite app_length. cbn [length]. lia.
    + lia.
    + cbn [length] in Ev. lia.
Qed.
Lemma locals_run callf r ps xs : forall h,
  runk kcmd hstate (scmd callf r ps) (map (fun x => KLet (vn x) None) xs) h = Norm (setg (lets (map (fun x => (x, 0)) xs) (hg h)) h).
Proof.
  induction xs as [|x xs IH]; intros h; cbn [map runk ShProg.scmd].
  - destruct h; reflexivity.
  - rewrite IH. reflexivity.
Qed.
Definition saved (d : fdef) (vs : list Z) : list (nat * Z) := combine (fparams d) vs ++ map (fun x => (x, 0)) (flocals d).
Lemma pre_run callf r vs d h : length vs = length (fparams d) ->
  runk kcmd hstate (scmd callf r vs) (pre vn d) h = Norm (setg (lets (saved d vs) (hg h)) h).
Proof.
  intros E. unfold pre. rewrite runk_app, (params_run callf r vs (fparams d) 2 h [] vs eq_refl eq_refl (le_n 2) E), locals_run.
  unfold saved, lets. rewrite fold_left_app. reflexivity.
Qed.
Lemma bind_binds xs : forall vs s, ShProg.bind xs vs s = binds (combine xs vs) s.
Proof. induction xs as [|x xs IH]; intros [|v vs] s; try reflexivity. cbn [ShProg.bind combine binds fold_left fst snd]. apply IH. Qed.
Lemma enter_binds d vs s : enter d vs s = binds (saved d vs) s.
Proof.
  unfold enter, saved, binds. rewrite fold_left_app, !bind_binds. unfold binds. f_equal.
  induction (flocals d); cbn [combine map]; [reflexivity|]. f_equal. assumption.
Qed.
Lemma saved_names d vs : length vs = length (fparams d) -> map fst (saved d vs) = fparams d ++ flocals d.
Proof.
  intros E. unfold saved. rewrite map_app, map_map, map_id. f_equal.
  revert vs E. induction (fparams d) as [|x xs IH]; intros [|v vs] E; try discriminate; [reflexivity|].
  cbn [combine map fst]. f_equal. apply IH. cbn [length] in E. lia.
Qed.
Lemma own_stk k n : In n [SP; TMP; CODE; none_name] -> stk k <> n.
Proof. intros H E. apply (stk_own k). rewrite E. exact H. Qed.
Lemma slet_nm x v g s : (forall l, g (nm l) = s l) -> forall l, slet (vn x) v g (nm l) = upd (LV x) v s l.
Proof.
  intros H l. unfold slet. unfold upd. destruct (loc_eq_dec l (LV x)) as [->|E]; [apply setv_same|].
  rewrite setv_other by (intros X; apply E; apply (nm_inj vn mn zn moff zsz NK l (LV x)); exact X).
  rewrite setv_other by (eapply nm_stk; eauto). rewrite setv_other by (eapply nm_sp; eauto). apply H.
Qed.
Lemma slet_sp x v g : slet (vn x) v g SP = g SP + 1.
Proof.
  unfold slet. rewrite setv_other by (apply not_eq_sym; apply (nm_sp N sev ro vn mn zn moff zsz SET (LV x))).
  rewrite setv_other by (apply not_eq_sym, own_stk; cbn; tauto). apply setv_same.
Qed.
Lemma slet_other x v g n : (forall l, nm l <> n) -> n <> SP -> n <> stk (g SP + 1) -> slet (vn x) v g n = g n.
Proof.
  intros H1 H2 H3. unfold slet. rewrite setv_other by (apply not_eq_sym; apply (H1 (LV x))). rewrite !setv_other by assumption. reflexivity.
Qed.
Lemma slet_stk x v g : slet (vn x) v g (stk (g SP + 1)) = g (vn x).
Proof.
  unfold slet. rewrite setv_other by (apply not_eq_sym; apply (nm_stk N sev ro vn mn zn moff zsz SET (LV x))).
  rewrite setv_same. rewrite setv_other by (apply (nm_sp N sev ro vn mn zn moff zsz SET (LV x))). reflexivity.
Qed.
Lemma lets_facts L : forall g s, NoDup (map fst L) -> (forall l, g (nm l) = s l) ->
  (forall l, lets L g (nm l) = binds L s l) /\ lets L g SP = g SP + Z.of_nat (length L) /\
  (forall n, (forall l, nm l <> n) -> n <> SP -> (forall k, g SP < k -> n <> stk k) -> lets L g n = g n) /\
  (forall i x, nth_error (map fst L) i = Some x -> lets L g (stk (g SP + 1 + Z.of_nat i)) = s (LV x)).
Proof.
  induction L as [|[y v] L IH]; intros g s ND H.
  - cbn [lets binds fold_left length map]. split; [exact H|]. split; [lia|]. split; [reflexivity|]. intros i x E. destruct i; discriminate.
  - cbn [map fst] in ND. inversion ND as [|? ? Nin ND2]; subst.
    destruct (IH (slet (vn y) v g) (upd (LV y) v s) ND2 (slet_nm y v g s H)) as (A & B & C & D).
    unfold lets, binds in *. cbn [fold_left fst snd length]. rewrite slet_sp in B, C, D. split; [exact A|]. split; [rewrite B; lia|]. split.
    + intros n H1 H2 H3. rewrite C; [|exact H1|exact H2|intros k Hk; apply H3; lia]. apply slet_other; [exact H1|exact H2|apply H3; lia].
    + intros [|i] x E; cbn [nth_error map fst] in E.
      * inversion E; subst. rewrite Z.add_0_r.
        rewrite C; [rewrite slet_stk; apply (H (LV x))|intros l; eapply nm_stk; eauto|apply own_stk; cbn; tauto|].
        intros k Hk X. apply stk_inj in X. lia.
      * replace (g SP + 1 + Z.of_nat (S i)) with (g SP + 1 + 1 + Z.of_nat i) by lia. rewrite (D i x E).
        apply upd_other. intros X. inversion X; subst. apply Nin. eapply nth_error_In; eauto.
Qed.

(** ** Restoring *)
Definition pops (xs : list nat) (g : vars) : vars := fold_left spop (rev (map vn xs)) g.
Lemma pops_facts xs : forall g s sp, g SP = sp + Z.of_nat (length xs) ->
  (forall i x, nth_error xs i = Some x -> g (stk (sp + 1 + Z.of_nat i)) = s (LV x)) ->
  (forall l, pops xs g (nm l) = if in_dec loc_eq_dec l (map LV xs) then s l else g (nm l)) /\ pops xs g SP = sp /\
  (forall n, (forall l, nm l <> n) -> n <> SP -> pops xs g n = g n).
Proof.
  induction xs as [|y xs IH] using rev_ind; intros g s sp Hsp Hst.
  - unfold pops. cbn. cbn [length Z.of_nat] in Hsp. split; [reflexivity|]. split; [lia|reflexivity].
  - rewrite app_length in Hsp. cbn [length] in Hsp. rewrite Nat.add_1_r in Hsp.
    unfold pops. rewrite map_app, rev_app_distr. cbn [map rev app fold_left].
    assert (Hy : g (stk (sp + 1 + Z.of_nat (length xs))) = s (LV y)).
    { apply Hst. rewrite nth_error_app2 by lia. rewrite Nat.sub_diag. reflexivity. }
    set (g1 := spop g (vn y)).
    assert (G1 : (forall n, n <> SP -> n <> vn y -> g1 n = g n) /\ g1 SP = sp + Z.of_nat (length xs) /\ g1 (vn y) = s (LV y)).
    { unfold g1, spop. split; [|split].
      - intros n A B. rewrite !setv_other by assumption. reflexivity.
      - rewrite setv_other by (apply not_eq_sym; apply (nm_sp N sev ro vn mn zn moff zsz SET (LV y))). rewrite setv_same. lia.
      - rewrite setv_same. rewrite setv_other by (apply own_stk; cbn; tauto). rewrite <- Hy. f_equal. f_equal. lia. }
    destruct G1 as (G1 & G2 & G3).
    destruct (IH g1 s sp G2) as (A & B & C).
    { intros i x E. rewrite G1; [apply Hst|apply own_stk; cbn; tauto|apply not_eq_sym; apply (nm_stk N sev ro vn mn zn moff zsz SET (LV y))].
      rewrite nth_error_app1; [exact E|]. apply nth_error_Some. congruence. }
    unfold pops in A, B, C. split; [|split].
    + intros l. rewrite A. destruct (in_dec loc_eq_dec l (map LV xs)) as [I|I].
      * destruct (in_dec loc_eq_dec l (map LV (xs ++ [y]))) as [J|J]; [reflexivity|]. exfalso. apply J. rewrite map_app. apply in_or_app. auto.
      * destruct (in_dec loc_eq_dec l (map LV (xs ++ [y]))) as [J|J]; rewrite map_app in J.
        -- apply in_app_or in J as [J|[<-|[]]]; [tauto|]. exact G3.
        -- apply G1; [eapply nm_sp; eauto|]. intros E. apply J, in_or_app. right. left. symmetry.
           apply (nm_inj vn mn zn moff zsz NK l (LV y)). exact E.
    + exact B.
    + intros n H1 H2. rewrite C by assumption. apply G1; [exact H2|]. apply not_eq_sym. apply (H1 (LV y)).
Qed.
Lemma islocal_in d l : islocal d l = true <-> In l (map LV (fparams d ++ flocals d)).
Proof.
  destruct l as [x|a]; cbn [islocal].
  - rewrite existsb_exists, in_map_iff. split.
    + intros (y & I & E). apply Nat.eqb_eq in E. subst y. eauto.
    + intros (y & E & I). inversion E; subst. exists x. split; [exact I|apply Nat.eqb_refl].
  - rewrite in_map_iff. split; [discriminate|]. intros (y & E & _). discriminate.
Qed.
Lemma leave_sim d vs r sp G0 c h c2 h2 : NoDup (fparams d ++ flocals d) -> length vs = length (fparams d) -> rok r ->
  sim sp G0 c h ->
  simR r (sp + Z.of_nat (length (saved d vs))) (lets (saved d vs) (hg h)) c2 h2 ->
  simR r sp G0 (sets (leave d (cs c) (cs c2)) c2) (srestore vn (owned d) r h2).
Proof.
  intros ND El (R0 & R1 & R2 & R3) (S1 & (S2 & S3 & S4) & S5) (A & B & C & D & E).
  pose proof (saved_names d vs El) as Nm.
  assert (Ll : length (saved d vs) = length (fparams d ++ flocals d)) by (rewrite <- Nm; symmetry; apply map_length).
  destruct (lets_facts (saved d vs) (hg h) (cs c)) as (L1 & L2 & L3 & L4); [rewrite Nm; exact ND|exact S2|].
  rewrite Nm in L4. rewrite S3 in *. rewrite Ll in *. clear Nm.
  assert (KM : forall n, keep sp n -> keep (sp + Z.of_nat (length (fparams d ++ flocals d))) n).
  { intros n (K1 & K2 & K3 & K4 & K5 & K6). repeat (split; [assumption|]). intros k Hk. apply K6. lia. }
  assert (KL : forall n, keep sp n -> lets (saved d vs) (hg h) n = G0 n).
  { intros n K. rewrite L3; [apply S4, K|apply K|apply K|apply K]. }
  unfold srestore, owned. unfold leave. destruct (fparams d ++ flocals d) as [|x0 xs0] eqn:Ex.
  - split; [|split; [|split; [|split; [exact D|exact E]]]].
    + intros l Hl. cbn [cs sets]. destruct (islocal d l) eqn:Il; [|apply A, Hl]. apply islocal_in in Il. rewrite Ex in Il. destruct Il.
    + rewrite B. cbn [length]. lia.
    + intros n K H. rewrite C; [apply KL, K|apply KM, K|exact H].
  - rewrite <- Ex in *. set (xs := fparams d ++ flocals d) in *.
    set (g := setv TMP (hg h2 r) (hg h2)).
    destruct (pops_facts xs g (cs c) sp) as (P1 & P2 & P3).
    + unfold g. rewrite setv_other by discriminate. exact B.
    + intros i x Hi. unfold g. rewrite setv_other by (apply own_stk; cbn; tauto). rewrite C.
      * apply L4, Hi.
      * split; [intros l; eapply nm_stk; eauto|]. split; [apply own_stk; cbn; tauto|]. split; [apply own_stk; cbn; tauto|].
        split; [apply own_stk; cbn; tauto|]. split; [eapply ro_stk; eauto|]. intros k Hk X. apply stk_inj in X.
        assert (i < length xs)%nat by (apply nth_error_Some; congruence). lia.
      * left. apply not_eq_sym, R3.
    + assert (Pt : pops xs g TMP = hg h2 r).
      { rewrite P3; [apply setv_same|intros l; eapply nm_tmp; eauto|discriminate]. }
      unfold endlet. fold g. change (fold_left spop (rev (map vn xs)) g) with (pops xs g). cbv zeta. rewrite Pt.
      split; [|split; [|split; [|split]]].
      * intros l Hl. cbn [hg setg cs sets]. rewrite setv_other by exact Hl. rewrite P1.
        destruct (in_dec loc_eq_dec l (map LV xs)) as [I|I]; destruct (islocal d l) eqn:Il; try reflexivity.
        -- exfalso. apply islocal_in in I. congruence.
        -- exfalso. apply islocal_in in Il. tauto.
        -- unfold g. rewrite setv_other by (eapply nm_tmp; eauto). apply A, Hl.
      * cbn [hg setg]. rewrite setv_other by (apply not_eq_sym; exact R1). exact P2.
      * intros n K H. cbn [hg setg]. cbn [cr sets] in H. pose proof K as (K1 & K2 & K3 & K4 & K5 & K6).
        assert (Cn : hg h2 n = G0 n) by (rewrite C; [apply KL, K|apply KM, K|exact H]).
        destruct (list_eq_dec Z.eq_dec n r) as [->|Hn]; [rewrite setv_same; exact Cn|].
        rewrite setv_other by exact Hn. rewrite P3 by assumption. unfold g. rewrite setv_other by exact K3. exact Cn.
      * intros v Hv. cbn [hg setg]. rewrite setv_same. apply D, Hv.
      * exact E.
Qed.

(** ** Calls *)
Variables (trd : cond -> clist) (prg : nat -> option fdef) (loc : nat -> option (list nat)) (frd : nat -> list (sh cond sval pc kcmd)).
Hypothesis TRD : forall t, gclist (ctoks vn mn zn t) (trd t).
Hypothesis PRG : forall f d, prg f = Some d ->
  ok_fun d /\ exists code, fcode vn mn zn d = Some code /\ prog cond sval pc kcmd code (frd f).
Hypothesis LOC : forall f, loc f = option_map owned (prg f).
Notation ccall := (ccall moff zsz true lim prg). Notation scall := (scall sev ro vn mn zn lim trd loc frd).

Theorem call_sim n : forall f r vs c h sp G0, rok r -> sim sp G0 c h ->
  arel (simR r sp G0) (ccall n f vs c) (scall n f r vs h).
Proof.
  induction n as [|m IH]; intros f r vs c h sp G0 Hr S.
  - right. eexists. split; [reflexivity|]. split; [reflexivity|apply S].
  - cbn [ShProg.ccall ShProg.scall]. rewrite LOC. destruct (prg f) as [d|] eqn:Ef; [|apply arel_bad]. cbn [option_map].
    destruct (Nat.eqb (length vs) (length (fparams d))) eqn:El; [|apply arel_bad]. apply Nat.eqb_eq in El.
    destruct (PRG f d Ef) as ((ND & Oks & Okl) & code & Fc & Pr).
    destruct (c28_function atom cond sval pc kcmd hstate (gen vn mn zn) (vgen vn mn zn) (scmd (scall m) r vs)
                (stst sev ro lim trd (scall m) r vs) (sword sev ro vn mn zn) (spat sev ro vn mn zn) (srestore vn (owned d) r)
                (fun a s => runk kcmd hstate (scmd (scall m) r vs) (gen vn mn zn a) s)
                (fun v s => match runk kcmd hstate (scmd (scall m) r vs) (vgen vn mn zn v) s with Norm s1 => sword sev ro vn mn zn v s1 | Halt s1 => VHalt s1 end)
                ckval (fun a s => eq_refl) (fun v s => eq_refl) (pat_ok N sev ro vn mn zn moff zsz SET) (pre vn d) (fbody d) code Okl Fc)
      as (rd & _ & Un & Run).
    rewrite (Un (frd f) Pr). specialize (Run (Datatypes.S m) h). rewrite (pre_run (scall m) r vs d h El) in Run.
    set (L := saved d vs) in *. set (h1 := setg (lets L (hg h)) h) in *. set (sp1 := sp + Z.of_nat (length L)).
    assert (S1 : sim sp1 (hg h1) (sets (enter d vs (cs c)) c) h1).
    { destruct S as (A & (B & C & D) & E). split; [exact A|]. split; [|exact E].
      destruct (lets_facts L (hg h) (cs c)) as (L1 & L2 & _ & _); [unfold L; rewrite saved_names by exact El; exact ND|exact B|].
      split; [|split; [|reflexivity]].
      - intros l. cbn [hg h1 setg cs sets]. rewrite L1, enter_binds. reflexivity.
      - cbn [hg h1 setg]. rewrite L2, C. reflexivity. }
    pose proof (proj1 (proj2 (lockstep atom cond sval pc cstate hstate ok_atom ok_ret ok_cond ok_sval ckval
      (cact moff zsz true lim (ccall m)) (fun a s => runk kcmd hstate (scmd (scall m) r vs) (gen vn mn zn a) s)
      (ctst moff zsz true (ccall m)) (stst sev ro lim trd (scall m) r vs)
      (cswv moff zsz true (ccall m))
      (fun v s => match runk kcmd hstate (scmd (scall m) r vs) (vgen vn mn zn v) s with Norm s1 => sword sev ro vn mn zn v s1 | Halt s1 => VHalt s1 end)
      (sim sp1 (hg h1)) (simR r sp1 (hg h1)) RH bad
      (fun a x y => atom_sim N sev ro vn mn zn moff zsz lim SET (scall m) (ccall m) r vs sp1 (hg h1) (fun f r vs c h => IH f r vs c h sp1 (hg h1)) a x y)
      (fun a x y => ret_sim N sev ro vn mn zn moff zsz lim SET (scall m) (ccall m) r vs sp1 (hg h1) Hr (fun f r vs c h => IH f r vs c h sp1 (hg h1)) a x y)
      (fun t x y Ok Sx => eq_ind_r (fun z => ShLock.trel cstate hstate (sim sp1 (hg h1)) RH bad (ctst moff zsz true (ccall m) t x) z)
         (tst_sim N sev ro vn mn zn moff zsz lim SET (scall m) (ccall m) r vs sp1 (hg h1) (fun f r vs c h => IH f r vs c h sp1 (hg h1)) t x y Ok Sx)
         (eq_trans (f_equal (fun q => sclist sev ro lim (scall m) r vs q y) (crd_only vn mn zn t (trd t) (TRD t))) (crd_run sev ro vn mn zn lim (scall m) r vs t y)))
      (fun v x y => val_sim N sev ro vn mn zn moff zsz lim SET (scall m) (ccall m) r vs sp1 (hg h1) (fun f r vs c h => IH f r vs c h sp1 (hg h1)) v x y))
      (fbody d) Oks) (Datatypes.S m) _ _ S1) as K.
    destruct (cevals atom cond sval pc cstate (cact moff zsz true lim (ccall m)) (ctst moff zsz true (ccall m))
                (cswv moff zsz true (ccall m)) ckval (Datatypes.S m) (fbody d) (sets (enter d vs (cs c)) c)) as [[c2|c2|c2|c2|c2]|] eqn:Ec;
      cbn [crel] in K.
    + destruct K as [h2 [K S2]]. rewrite K in Run.
      assert (Q : simR r sp G0 (sets (leave d (cs c) (cs c2)) c2) (srestore vn (owned d) r h2)) by (eapply leave_sim; eauto; apply sim_simR; exact S2).
      cbn [same_end] in Run.
      match type of Run with match ?x with _ => _ end => destruct x as [[s'|k s'|s'|s'|s']|] end; try contradiction Run; subst s'; eexists; (split; [reflexivity|exact Q]).
    + apply arel_bad.
    + apply arel_bad.
    + destruct K as [h2 [K S2]]. rewrite K in Run.
      assert (Q : simR r sp G0 (sets (leave d (cs c) (cs c2)) c2) (srestore vn (owned d) r h2)) by (eapply leave_sim; eauto).
      cbn [same_end] in Run.
      match type of Run with match ?x with _ => _ end => destruct x as [[s'|k s'|s'|s'|s']|] end; try contradiction Run; subst s'; eexists; (split; [reflexivity|exact Q]).
    + destruct K as [K|[h2 [K H2]]]; [left; exact K|]. rewrite K in Run. cbn [same_end] in Run.
      match type of Run with match ?x with _ => _ end => destruct x as [[s'|k s'|s'|s'|s']|] end; try contradiction Run. subst s'.
      right. eexists. split; [reflexivity|exact H2].
    + rewrite K in Run. cbn [same_end] in Run.
      match type of Run with match ?x with _ => _ end => destruct x as [[s'|k s'|s'|s'|s']|] end; try contradiction Run.
      right. eexists. split; [reflexivity|]. split; [reflexivity|apply S].
Qed.
Theorem run_sim n main g : snd (crun moff zsz true lim prg n main (fun l => g (nm l))) <> Stuck ->
  srun sev ro vn mn zn lim trd loc frd n main g = crun moff zsz true lim prg n main (fun l => g (nm l)).
Proof.
  intros H. unfold srun, crun in *.
  assert (S : sim (g SP) (setv CODE 0 g) (CS (fun l => g (nm l)) [] None Running) (HS (setv CODE 0 g) [] Running)).
  { split; [reflexivity|]. split; [|reflexivity]. split; [|split; [|reflexivity]].
    - intros l. cbn [hg cs]. apply setv_other. eapply nm_code; eauto.
    - cbn [hg]. apply setv_other. discriminate. }
  pose proof (call_sim n main CODE [] _ _ _ _ rok_code S) as K.
  destruct (ccall n main [] _) as [c1|c1]; cbn [ShLock.arel] in K.
  - destruct K as [h1 [-> (A & B & C & D & E)]]. destruct (cr c1) as [v|] eqn:Ev.
    + rewrite (D v eq_refl), E. destruct (byte v); reflexivity.
    + assert (Kc : keep (g SP) CODE).
      { split; [intros l; eapply nm_code; eauto|]. split; [discriminate|]. split; [discriminate|]. split; [discriminate|].
        split; [eapply ro_own; eauto; cbn; tauto|]. intros k _ X. apply (own_stk k CODE); [cbn; tauto|]. auto. }
      rewrite (C CODE Kc (or_intror eq_refl)), setv_same, E. reflexivity.
  - destruct K as [K|[h1 [-> [K1 K2]]]].
    + cbn [snd] in H. contradiction.
    + rewrite K1, K2. reflexivity.
Qed.
End Sim.
