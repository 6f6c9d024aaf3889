(** * Whole programs compiled to shell scripts: simple statements and conditions *)
From Coq Require Import ZArith List Lia Bool.
From Verif Require Import Base Numerals Output Ast Parse ShArith ShExpr ShCSem ShEqs ShFacts ShFacts2 ShSyn ShSem ShMain ShMain6 ShStmt ShProg ShLock ShProg1 ShProg2.
From Verif Require ShCall ShCallProof.
Import ListNotations.
Open Scope Z_scope.
Local Notation length := List.length.

Definition bad (c : cstate) : Prop := cx c = Stuck.
Definition RH (c : cstate) (h : hstate) : Prop := cx c = hx h /\ co c = ho h.
Notation arel := (arel cstate hstate RH bad).
Notation trel := (fun R => trel cstate hstate R RH bad).
Notation vrel := (fun R => vrel cstate hstate R RH bad).

Lemma runk_app cmd a : forall b (h : hstate), runk kcmd hstate cmd (a ++ b) h =
  match runk kcmd hstate cmd a h with Norm h1 => runk kcmd hstate cmd b h1 | Halt h1 => Halt h1 end.
Proof. induction a as [|k a IH]; intros b h; cbn [app runk]; [reflexivity|]. destruct (cmd k h); [apply IH|reflexivity]. Qed.
Lemma runk_one cmd k (h : hstate) : runk kcmd hstate cmd [k] h = cmd k h.
Proof. cbn [runk]. destruct (cmd k h); reflexivity. Qed.
Lemma arel_bind (R1 R2 : cstate -> hstate -> Prop) a b k1 k2 : arel R1 a b -> (forall x y, R1 x y -> arel R2 (k1 x) (k2 y)) ->
  arel R2 (cthen a k1) (match b with Norm y => k2 y | Halt y => Halt y end).
Proof.
  intros H K. destruct a as [x|x]; cbn [ShLock.arel cthen] in *.
  - destruct H as [y [-> H]]. apply K, H.
  - destruct H as [H|[y [-> H]]]; [left; exact H|right; eauto].
Qed.
Lemma arel_mono (R R' : cstate -> hstate -> Prop) a b : (forall x y, R x y -> R' x y) -> arel R a b -> arel R' a b.
Proof. intros M H. destruct a; cbn [ShLock.arel] in *; [destruct H as [y [-> H]]; eauto|exact H]. Qed.
Lemma arel_bad (R : cstate -> hstate -> Prop) c b : arel R (Halt (chalt Stuck c)) b.
Proof. left. reflexivity. Qed.

Section Sim.
Variables (N : Z) (sev : list item -> vars -> option (list Z * vars)) (ro : name -> option Z).
Variables (vn mn zn : nat -> name) (moff zsz : nat -> Z) (lim : nat).
Hypothesis SET : setting N sev ro vn mn zn moff zsz.
Notation rv := (comp_rvalue_go vn mn zn). Notation lv := (comp_lvalue vn mn zn).
Notation overlay := (overlay ro). Notation gs := (gs ro vn). Notation nm := (nm vn). Notation keep := (keep ro vn).
Notation cval := (cval moff zsz true). Notation clval := (clval moff zsz true). Notation cargs := (cargs moff zsz true).
Notation wexp := (wexp sev ro). Notation wval := (wval sev ro). Notation wvals := (wvals sev ro).
Let NK : names_ok vn mn zn moff zsz := st_names _ _ _ _ _ _ _ _ SET.

Definition sim (sp : Z) (G0 : vars) (c : cstate) (h : hstate) : Prop :=
  cr c = None /\ gs sp G0 (cs c) (hg h) /\ co c = ho h.
Definition simR (r : name) (sp : Z) (G0 : vars) (c : cstate) (h : hstate) : Prop :=
  (forall l, nm l <> r -> hg h (nm l) = cs c l) /\ hg h SP = sp /\
  (forall n, keep sp n -> n <> r \/ cr c = None -> hg h n = G0 n) /\
  (forall v, cr c = Some v -> hg h r = v) /\ co c = ho h.
Definition rok (r : name) : Prop := is_ident r /\ r <> SP /\ r <> TMP /\ forall k, r <> stk k.
Lemma sim_simR r sp G0 c h : sim sp G0 c h -> simR r sp G0 c h.
Proof.
  intros (A & (B & C & D) & E). split; [intros l _; apply B|]. split; [exact C|]. split; [intros n K _; apply D, K|].
  split; [|exact E]. intros v X. congruence.
Qed.
Lemma rok_nm l : is_ident (nm l) -> rok (nm l).
Proof.
  intros I. split; [exact I|]. split; [eapply nm_sp; eauto|]. split; [eapply nm_tmp; eauto|]. intros k. eapply nm_stk; eauto.
Qed.
Lemma rok_none : rok none_name.
Proof.
  split; [split; reflexivity|]. split; [discriminate|]. split; [discriminate|]. intros k E. apply (stk_own k). rewrite <- E. cbn. tauto.
Qed.
Lemma rok_code : rok CODE.
Proof.
  split; [split; reflexivity|]. split; [discriminate|]. split; [discriminate|]. intros k E. apply (stk_own k). rewrite <- E. cbn. tauto.
Qed.

Section Call.
Variables (callf : nat -> name -> list Z -> hstate -> ares hstate) (ccallf : nat -> list Z -> cstate -> ares cstate).
Variables (r : name) (ps : list Z) (sp : Z) (G0 : vars).
Hypothesis Hr : rok r.
Hypothesis CALL : forall f r vs c h, rok r -> sim sp G0 c h -> arel (simR r sp G0) (ccallf f vs c) (callf f r vs h).
Notation scmd := (scmd sev ro lim callf r ps). Notation runk := (runk kcmd hstate scmd).
Notation sim := (sim sp G0). Notation simR := (fun r => simR r sp G0). Notation gs := (gs sp G0).
Notation chc := (chc moff zsz true ccallf). Notation chcs := (chcs moff zsz true ccallf).
Notation cact := (cact moff zsz true lim ccallf).

Lemma sim_set c h s g : sim c h -> gs s g -> sim (sets s c) (setg g h).
Proof. intros (A & _ & C) G. split; [exact A|]. split; [exact G|exact C]. Qed.
Lemma wval_step e o c h v s R W : okx e = true -> sim c h -> cval e (cs c) = Some (v, s, R, W) ->
  exists h1, wval (rv e false o) h = Some (v, h1) /\ sim (sets s c) h1.
Proof.
  intros Ok S E. destruct (word_step N sev ro vn mn zn moff zsz SET e o sp G0 (cs c) (hg h) v s R W Ok (proj1 (proj2 S)) E) as (g1 & X & G).
  exists (setg g1 h). split; [|apply sim_set; auto]. unfold ShProg.wval, ShProg.wexp. rewrite X, undec_decimal. reflexivity.
Qed.
Lemma wexp_step e o c h v s R W : okx e = true -> sim c h -> cval e (cs c) = Some (v, s, R, W) ->
  exists h1, wexp (rv e false o) h = Some (decimal v, h1) /\ sim (sets s c) h1.
Proof.
  intros Ok S E. destruct (word_step N sev ro vn mn zn moff zsz SET e o sp G0 (cs c) (hg h) v s R W Ok (proj1 (proj2 S)) E) as (g1 & X & G).
  exists (setg g1 h). split; [|apply sim_set; auto]. unfold ShProg.wexp. rewrite X. reflexivity.
Qed.
Lemma args_step a : forall c h vs s R W, forallb okx a = true -> sim c h -> cargs a (cs c) = Some (vs, s, R, W) ->
  exists h1, wvals (map (fun e => rv e false 0) a) h = Some (vs, h1) /\ sim (sets s c) h1.
Proof.
  induction a as [|e a IH]; intros c h vs s R W Ok S E; cbn [ShProg.cargs forallb map ShProg.wvals] in *.
  - inversion E; subst. exists h. split; [reflexivity|]. exact S.
  - apply andb_true_iff in Ok as [O1 O2]. destruct (cval e (cs c)) as [[[[v s1] Ra] Wa]|] eqn:Ev; [|discriminate].
    destruct (cargs a s1) as [[[[vs2 s2] Rb] Wb]|] eqn:Ea; [|discriminate]. destruct (race _ _ _ _); [discriminate|].
    inversion E; subst. destruct (wval_step e 0 c h v s1 Ra Wa O1 S Ev) as (h1 & -> & S1).
    destruct (IH (sets s1 c) h1 vs2 s Rb Wb O2 S1 Ea) as (h2 & -> & S2). exists h2. split; [reflexivity|exact S2].
Qed.
Lemma name_step n c h : sim c h -> exists h1, wexp (chs n) h = Some (n, h1) /\ sim c h1.
Proof.
  intros (A & B & C). exists (setg (overlay (hg h)) h). split.
  - unfold ShProg.wexp, chs. rewrite (st_shell _ _ _ _ _ _ _ _ SET _ _ _ _ (exp_chs N n (overlay (hg h)))). reflexivity.
  - split; [exact A|]. split; [|exact C]. cbn [hg setg]. eapply gs_over; eauto.
Qed.
(* the result of a call is stored *)
Lemma store_sim l c h v : simR (nm l) c h -> cr c = Some v -> sim (CS (upd l v (cs c)) (co c) None (cx c)) h.
Proof.
  intros (A & B & C & D & E) Hv. split; [reflexivity|]. split; [|exact E]. split; [|split].
  - intros m. cbn [cs]. unfold upd. destruct (loc_eq_dec m l) as [->|H]; [apply D, Hv|]. apply A. intros X. apply H. eapply nm_inj; eauto.
  - exact B.
  - intros n K. apply C; [exact K|]. left. apply not_eq_sym, K.
Qed.
Lemma drop_sim c h : simR none_name c h -> sim (CS (cs c) (co c) None (cx c)) h.
Proof.
  intros (A & B & C & D & E). split; [reflexivity|]. split; [|exact E]. split; [|split].
  - intros m. apply A. eapply nm_none; eauto.
  - exact B.
  - intros n K. apply C; [exact K|]. left. apply K.
Qed.
Lemma called R f rr vs c h k : rok rr -> sim c h -> (forall c1 h1, simR rr c1 h1 -> arel R (k (cr c1) (CS (cs c1) (co c1) None (cx c1))) (Norm h1)) ->
  arel R (ccalled ccallf f vs c k) (callf f rr vs h).
Proof.
  intros Hrr S K. unfold ccalled. pose proof (CALL f rr vs c h Hrr S) as H. destruct (ccallf f vs c) as [c1|c1]; cbn [ShLock.arel] in H.
  - destruct H as [h1 [-> H]]. apply K, H.
  - exact H.
Qed.
Lemma hc_sim x c h : ok_hc x = true -> sim c h -> arel sim (chc x c) (scmd (hgen vn mn zn x) h).
Proof.
  intros Ok S. unfold ShProg.chc, hgen. cbn [ShProg.scmd].
  destruct (name_step (vn (hc_t x)) c h S) as (h1 & -> & S1).
  destruct (cargs (hc_a x) (cs c)) as [[[[vs s] R] W]|] eqn:E; [|apply arel_bad].
  destruct (args_step _ c h1 vs s R W Ok S1 E) as (h2 & -> & S2).
  apply called; [apply (rok_nm (LV (hc_t x))); apply (nk_vi _ _ _ _ _ NK)|exact S2|].
  intros c1 h3 H. unfold cstore. destruct (cr c1) as [v|] eqn:Ev; [|apply arel_bad].
  eexists. split; [reflexivity|]. apply (store_sim (LV (hc_t x)) c1 h3 v H Ev).
Qed.
Lemma hcs_sim l : forall c h, forallb ok_hc l = true -> sim c h -> arel sim (chcs l c) (runk (map (hgen vn mn zn) l) h).
Proof.
  induction l as [|x l IH]; intros c h Ok S; cbn [ShProg.chcs map ShStmt.runk forallb] in *.
  - eexists. split; [reflexivity|exact S].
  - apply andb_true_iff in Ok as [O1 O2]. pose proof (hc_sim x c h O1 S) as H.
    apply (arel_bind sim sim _ _ _ _ H). intros c1 h1 H1. apply IH; assumption.
Qed.
(* calls, then one command *)
Lemma calls_then R l k c h K : forallb ok_hc l = true -> sim c h ->
  (forall c1 h1, sim c1 h1 -> arel R (k c1) (runk K h1)) ->
  arel R (cthen (chcs l c) k) (runk (map (hgen vn mn zn) l ++ K) h).
Proof.
  intros Ok S H. rewrite runk_app. eapply arel_bind; [apply hcs_sim; assumption|]. exact H.
Qed.
Lemma asg_var e x s v s' R W : cval (XAsg EQ (XVar x) e) s = Some (v, s', R, W) ->
  exists s1 R1 W1, cval e s = Some (v, s1, R1, W1) /\ s' = upd (LV x) v s1.
Proof.
  unfold ShProg.cval. rewrite cev_eq, hst_eq, clv_eq, hlv_eq. cbv beta iota.
  destruct (cev moff zsz e s) as [[[[v1 s1] R1] W1]|]; [|discriminate].
  destruct (_ || _); [discriminate|]. change (EQ =? EQ) with true. cbv iota.
  unfold ShCSem.hseq. destruct (hst moff zsz e s) as [[Hh Vv]|]; [|discriminate].
  destruct (_ && _); [|discriminate]. intros X. inversion X; subst. eauto 8.
Qed.
Lemma asg_code x e c h : okx (XAsg EQ x e) = true -> sim c h ->
  arel sim (cwith moff zsz true (XAsg EQ x e) c (fun _ c => Norm c))
    (scmd (KColon [Ar (lv x ++ op_to_str EQ ++ rv e true 0)]) h).
Proof.
  intros Ok S. unfold cwith. destruct (cval (XAsg EQ x e) (cs c)) as [[[[v s] R] W]|] eqn:E; [|apply arel_bad].
  destruct (arith_step N sev ro vn mn zn moff zsz SET (XAsg EQ x e) sp G0 (cs c) (hg h) v s R W Ok (proj1 (proj2 S)) E) as (g1 & X & G).
  cbn [ShProg.scmd]. unfold ShProg.wexp. rewrite <- (rv_eq0 vn mn zn).
  change (rv (XAsg EQ x e) true 0) with (lv x ++ op_to_str EQ ++ rv e true EQ) in X. rewrite X.
  eexists. split; [reflexivity|]. apply sim_set; assumption.
Qed.
Lemma set_code x e c h : okx (XAsg EQ (XVar x) e) = true -> sim c h ->
  arel sim (cwith moff zsz true (XAsg EQ (XVar x) e) c (fun _ c => Norm c)) (scmd (KSet (vn x) (rv e false 0)) h).
Proof.
  intros Ok S. unfold cwith. destruct (cval (XAsg EQ (XVar x) e) (cs c)) as [[[[v s] R] W]|] eqn:E; [|apply arel_bad].
  apply asg_var in E as (s1 & R1 & W1 & E & ->). rewrite okx_eq in Ok. rewrite !andb_true_iff in Ok. destruct Ok as [[[_ _] Ok] _].
  destruct (wval_step e 0 c h v s1 R1 W1 Ok S E) as (h1 & X & S1). cbn [ShProg.scmd]. rewrite X.
  eexists. split; [reflexivity|]. destruct S1 as (A & B & C). split; [exact A|]. split; [|exact C].
  apply (gs_set N sev ro vn mn zn moff zsz SET sp G0 s1 (hg h1) (LV x) v B).
Qed.
Lemma gen_asg cs x e : gen vn mn zn (QAsg cs x e) = map (hgen vn mn zn) cs ++ [KColon [Ar (lv x ++ op_to_str EQ ++ rv e true 0)]] \/
  exists y, x = XVar y /\ gen vn mn zn (QAsg cs x e) = map (hgen vn mn zn) cs ++ [KSet (vn y) (rv e false 0)].
Proof.
  unfold gen. destruct x; try (left; reflexivity).
  destruct (is_asg e); [left; reflexivity|right; eexists; split; reflexivity].
Qed.
Theorem atom_sim a c h : ok_atom a = true -> sim c h -> arel sim (cact a c) (runk (gen vn mn zn a) h).
Proof.
  intros Ok S. destruct a as [l e|l x e|l d f a|l e|l e|l e|l f a|]; cbn [ok_atom] in Ok; try discriminate; rewrite ?andb_true_iff in Ok.
  - destruct Ok as [[O1 O2] O3]. cbn [ShProg.cact gen]. apply calls_then; [exact O1|exact S|]. intros c1 h1 S1. unfold cwith.
    destruct (cval e (cs c1)) as [[[[v s] R] W]|] eqn:E; [|apply arel_bad].
    destruct (cse e) eqn:Ce.
    + rewrite runk_one. cbn [ShProg.scmd]. destruct (wexp_step e 0 c1 h1 v s R W O2 S1 E) as (h2 & -> & S2). eexists. split; [reflexivity|exact S2].
    + cbn [orb] in O3. cbn [ShStmt.runk]. eexists. split; [reflexivity|].
      apply cval_inv in E as [E _]. pose proof (proj1 (noeff_w moff zsz e O3) _ _ _ _ _ E) as ->.
      pose proof (same_r moff zsz e _ _ _ _ _ E) as Sm. destruct S1 as (A & B & C). split; [exact A|]. split; [|exact C].
      eapply gs_ext; [|exact B]. intros m. apply Sm. intros [].
  - destruct Ok as [O1 O2]. cbn [ShProg.cact].
    destruct (gen_asg l x e) as [-> |(y & -> & ->)]; (apply calls_then; [exact O1|exact S|]; intros c1 h1 S1; rewrite runk_one).
    + apply asg_code; assumption.
    + apply set_code; assumption.
  - destruct Ok as [[O1 O2] O3]. destruct d as [x|]; cbn [ShProg.cact gen];
      (apply calls_then; [exact O1|exact S|]; intros c1 h1 S1; rewrite runk_one; cbn [ShProg.scmd]).
    + destruct (clval x (cs c1)) as [[[[lo s1] Ra] Wa]|] eqn:El; [|apply arel_bad].
      destruct (lval_step N sev ro vn mn zn moff zsz SET x sp G0 (cs c1) (hg h1) lo s1 Ra Wa O3 (proj1 (proj2 S1)) El) as (g1 & X & I & G).
      unfold ShProg.wexp. rewrite X. pose proof (sim_set c1 h1 s1 g1 S1 G) as S2.
      destruct (cargs a s1) as [[[[vs s2] Rb] Wb]|] eqn:Ea; [|apply arel_bad].
      destruct (race _ _ _ _); [apply arel_bad|].
      destruct (args_step a (sets s1 c1) _ vs s2 Rb Wb O2 S2 Ea) as (h3 & -> & S3).
      apply called; [apply rok_nm, I|exact S3|]. intros c2 h4 H. unfold cstore. destruct (cr c2) as [v|] eqn:Ev; [|apply arel_bad].
      eexists. split; [reflexivity|]. apply (store_sim lo c2 h4 v H Ev).
    + destruct (name_step none_name c1 h1 S1) as (h2 & -> & S2).
      destruct (cargs a (cs c1)) as [[[[vs s2] Rb] Wb]|] eqn:Ea; [|apply arel_bad].
      destruct (args_step a c1 h2 vs s2 Rb Wb O2 S2 Ea) as (h3 & -> & S3).
      apply called; [apply rok_none|exact S3|]. intros c2 h4 H. eexists. split; [reflexivity|]. apply drop_sim, H.
  - destruct Ok as [[O1 O2] O3]. cbn [ShProg.cact gen]. apply calls_then; [exact O1|exact S|]. intros c1 h1 S1. unfold cwith.
    rewrite runk_one. change (match e with XVar x => chs (vn x) | _ => chs [40] ++ rv e true 0 ++ chs [41] end) with (putw vn mn zn e).
    cbn [ShProg.scmd].
    destruct (cval e (cs c1)) as [[[[v s] R] W]|] eqn:E; [|apply arel_bad].
    destruct (byte v) eqn:B; [|apply arel_bad].
    destruct (put_step N sev ro vn mn zn moff zsz SET e sp G0 (cs c1) (hg h1) v s R W O2 O3 B (proj1 (proj2 S1)) E) as (d1 & d2 & d3 & g1 & X & Nv & G).
    unfold ShProg.wexp. change [47; 54; 52] with suf1. change [47; 56; 37; 56] with suf2. change [37; 56] with suf3.
    rewrite X. rewrite Nv, B. destruct S1 as (A & _ & C). cbn [setg ho co sets]. rewrite <- C.
    destruct (Nat.ltb _ _).
    + eexists. split; [reflexivity|]. split; [exact A|]. split; [exact G|]. cbn [co ho]. reflexivity.
    + right. eexists. split; [reflexivity|]. split; [reflexivity|exact C].
  - destruct Ok as [O1 O2]. cbn [ShProg.cact gen]. apply calls_then; [exact O1|exact S|]. intros c1 h1 S1. unfold cwith.
    rewrite runk_one. cbn [ShProg.scmd]. destruct (cval e (cs c1)) as [[[[v s] R] W]|] eqn:E; [|apply arel_bad].
    destruct (wval_step e 0 c1 h1 v s R W O2 S1 E) as (h2 & -> & S2).
    destruct (byte v); [|apply arel_bad]. right. eexists. split; [reflexivity|]. split; [reflexivity|apply S2].
Qed.
Theorem ret_sim a c h : ok_ret a = true -> sim c h -> arel (simR r) (cact a c) (runk (gen vn mn zn a) h).
Proof.
  intros Ok S. destruct a as [l e|l x e|l d f a|l e|l e|l e|l f a|]; cbn [ok_ret] in Ok; try discriminate; rewrite ?andb_true_iff in Ok.
  - destruct Ok as [[O1 O2] O3]. apply negb_true_iff in O3. cbn [ShProg.cact gen]. apply calls_then; [exact O1|exact S|]. intros c1 h1 S1. unfold cwith.
    rewrite runk_one. cbn [ShProg.scmd]. destruct (cval e (cs c1)) as [[[[v s] R] W]|] eqn:E; [|apply arel_bad].
    destruct Hr as (I & R1 & R2 & R3).
    destruct (ret_step N sev ro vn mn zn moff zsz SET e r sp G0 (cs c1) (hg h1) v s R W O2 O3 I (proj1 (proj2 S1)) E) as (g1 & X & G).
    unfold ShProg.wexp. rewrite X. eexists. split; [reflexivity|]. destruct G as (A & B & C).
    cbn [hg setg cs cr co ho sets ShProg.cr]. split; [|split; [|split; [|split]]].
    + intros m Hm. cbn [hg setg cs]. rewrite setv_other by exact Hm. apply A.
    + cbn [hg setg]. rewrite setv_other by (apply not_eq_sym; exact R1). exact B.
    + intros n K [Hn|Hn]; [|discriminate]. cbn [hg setg]. rewrite setv_other by exact Hn. apply C, K.
    + intros w Hw. cbn [cr] in Hw. inversion Hw; subst. apply setv_same.
    + apply S1.
  - destruct Ok as [O1 O2]. cbn [ShProg.cact gen]. apply calls_then; [exact O1|exact S|]. intros c1 h1 S1.
    rewrite runk_one. cbn [ShProg.scmd]. destruct (cargs a (cs c1)) as [[[[vs s2] Rb] Wb]|] eqn:Ea; [|apply arel_bad].
    destruct (args_step a c1 h1 vs s2 Rb Wb O2 S1 Ea) as (h3 & -> & S3).
    apply called; [exact Hr|exact S3|]. intros c2 h4 H. destruct (cr c2) as [v|] eqn:Ev; [|apply arel_bad].
    eexists. split; [reflexivity|]. destruct H as (A & B & C & D & E). split; [exact A|]. split; [exact B|].
    split; [|split; [|exact E]].
    + intros n K [Hn|Hn]; [|discriminate]. apply C; auto.
    + intros w Hw. cbn [cr] in Hw. inversion Hw; subst. apply D. exact Ev.
  - cbn [ShProg.cact gen ShStmt.runk]. eexists. split; [reflexivity|]. apply sim_simR, S.
Qed.
End Call.
End Sim.
