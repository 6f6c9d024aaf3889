(** * Whole programs compiled to shell scripts: conditions and switches *)
From Coq Require Import ZArith List Lia Bool.
From Verif Require Import Base Numerals Output Ast Parse ShArith ShExpr ShCSem ShEqs ShFacts ShFacts2 ShSyn ShSem ShMain ShMain6 ShStmt ShProg ShLock ShProg1 ShProg2 ShProg3.
From Verif Require ShCall ShCallProof.
Import ListNotations.
Open Scope Z_scope.
Local Notation length := List.length.
Notation gelem := (ShCall.gelem leaf unit unit unit unit kcmd).
Notation gandor := (ShCall.gandor leaf unit unit unit unit kcmd).
Notation gclist := (ShCall.gclist leaf unit unit unit unit kcmd).

(** ** How the shell reads a condition *)
Section Read.
Variables (vn mn zn : nat -> name).
Notation hgen := (hgen vn mn zn). Notation leaf_of := (leaf_of vn mn zn).
Notation calltoks := (calltoks vn mn zn). Notation inner := (inner vn mn zn). Notation ctoks := (ctoks vn mn zn).
Definition one (x : simple) : andor := ShCall.AOne (ShCall.ESimple x).
Fixpoint addc (c : clist) (l : list hc) (x : simple) : clist :=
  match l with [] => ShCall.LSeq c (one x) | h :: l => addc (ShCall.LSeq c (one (tcall (hgen h)))) l x end.
Definition seqcl (l : list hc) (x : simple) : clist :=
  match l with [] => ShCall.LOne (one x) | h :: l => addc (ShCall.LOne (one (tcall (hgen h)))) l x end.
Lemma g_one x : gandor [ShCall.KSimple x] (one x).
Proof. constructor. constructor. Qed.
Lemma addc_g l x : forall t c, gclist t c -> gclist (t ++ ShCall.KSemi :: calltoks l ++ [ShCall.KSimple x]) (addc c l x).
Proof.
  induction l as [|h l IH]; intros t c H; cbn [ShProg.calltoks flat_map addc app].
  - apply ShCall.G_seq; [exact H|apply g_one].
  - fold (calltoks l).
    match goal with |- ShCall.gclist _ _ _ _ _ _ (t ++ ?a :: ?b :: ?r) _ => replace (t ++ a :: b :: r) with ((t ++ a :: [b]) ++ r) by (rewrite <- app_assoc; reflexivity) end.
    apply IH. apply ShCall.G_seq; [exact H|apply g_one].
Qed.
Lemma seqcl_g l x : gclist (calltoks l ++ [ShCall.KSimple x]) (seqcl l x).
Proof.
  destruct l as [|h l]; cbn [ShProg.calltoks flat_map seqcl app]; [constructor; apply g_one|]. fold (calltoks l).
  apply (addc_g l x [ShCall.KSimple (tcall (hgen h))]). constructor. apply g_one.
Qed.
Fixpoint foldl (o : bool) (a : andor) (es : list elem) : andor := match es with [] => a | e :: es => foldl o (ShCall.ALog a o e) es end.
Definition chain (o : bool) (es : list elem) : andor :=
  match es with [] => ShCall.AOne (ShCall.ESimple (ttest (Leaf 0 [] []))) | e :: es => foldl o (ShCall.AOne e) es end.
Inductive joined (o : bool) : list elem -> list ctok -> Prop :=
| J_one t e : gelem t e -> joined o [e] t
| J_more t e es u : gelem t e -> joined o es u -> joined o (e :: es) (t ++ ShCall.KLog o :: u).
Lemma joined_app o es t fs u : joined o es t -> joined o fs u -> joined o (es ++ fs) (t ++ ShCall.KLog o :: u).
Proof.
  induction 1; intros J; cbn [app]; [constructor; assumption|].
  rewrite <- app_assoc. cbn [app]. constructor; auto.
Qed.
Lemma joined_fold o es u : joined o es u -> forall t a, gandor t a -> gandor (t ++ ShCall.KLog o :: u) (foldl o a es).
Proof.
  induction 1; intros t0 a G; cbn [foldl]; [constructor; assumption|].
  replace (t0 ++ ShCall.KLog o :: t ++ ShCall.KLog o :: u) with ((t0 ++ ShCall.KLog o :: t) ++ ShCall.KLog o :: u) by (rewrite <- app_assoc; reflexivity).
  apply IHjoined. constructor; assumption.
Qed.
Lemma joined_g o es t : joined o es t -> gandor t (chain o es).
Proof.
  intros H; destruct H; cbn [chain foldl]; [constructor; assumption|]. apply joined_fold; [assumption|constructor; assumption].
Qed.
Definition pelem (l : list hc) (e : xe) : elem :=
  match l with [] => ShCall.ESimple (ttest (leaf_of e)) | _ => ShCall.EGroup (seqcl l (ttest (leaf_of e))) end.
(* the elements of a condition used as an operand of o *)
Fixpoint elems (o : bool) (t : cond) : list elem :=
  match t with
  | CLeaf l e => [pelem l e]
  | CLog o' a b => if Bool.eqb o o' then elems o a ++ elems o b else [ShCall.EGroup (ShCall.LOne (chain o' (elems o' a ++ elems o' b)))]
  end.
Definition crd (t : cond) : clist :=
  match t with
  | CLeaf l e => seqcl l (ttest (leaf_of e))
  | CLog o a b => ShCall.LOne (chain o (elems o a ++ elems o b))
  end.
Lemma pelem_g l e : gelem (inner (CLeaf l e)) (pelem l e).
Proof.
  destruct l as [|h l]; [constructor|]. cbn [ShProg.inner pelem]. rewrite app_assoc. constructor. apply seqcl_g.
Qed.
Lemma elems_g t : forall o, joined o (elems o t) (brace o t (inner t)).
Proof.
  induction t as [l e|o' a IHa b IHb]; intros o; cbn [elems brace].
  - constructor. apply pelem_g.
  - assert (J : joined o' (elems o' a ++ elems o' b) (inner (CLog o' a b))) by (cbn [ShProg.inner]; apply joined_app; auto).
    destruct (Bool.eqb o o') eqn:E.
    + apply eqb_prop in E. subst o'. exact J.
    + constructor. constructor. constructor. apply joined_g. exact J.
Qed.
Lemma crd_g t : gclist (ctoks t) (crd t).
Proof.
  destruct t as [l e|o a b]; cbn [ShProg.ctoks crd]; [apply seqcl_g|].
  constructor. apply joined_g. cbn [ShProg.inner]. apply joined_app; apply elems_g.
Qed.
Lemma crd_only t c : gclist (ctoks t) c -> c = crd t.
Proof. intros H. exact (ShCallProof.clist_unique _ _ _ _ _ _ _ _ _ H (crd_g t)). Qed.
End Read.

Section Sim.
Variables (N : Z) (sev : list item -> vars -> option (list Z * vars)) (ro : name -> option Z).
Variables (vn mn zn : nat -> name) (moff zsz : nat -> Z) (lim : nat).
Hypothesis SET : setting N sev ro vn mn zn moff zsz.
Notation rv := (comp_rvalue_go vn mn zn). Notation lv := (comp_lvalue vn mn zn).
Notation overlay := (overlay ro). Notation nm := (nm vn).
Notation cval := (cval moff zsz true).
Notation wexp := (wexp sev ro). Notation wval := (wval sev ro).
Notation hgen := (hgen vn mn zn). Notation leaf_of := (leaf_of vn mn zn).
Let NK : names_ok vn mn zn moff zsz := st_names _ _ _ _ _ _ _ _ SET.
Let HN : 32 <= N := st_bits _ _ _ _ _ _ _ _ SET.
Notation sleaf := (sleaf sev ro).

Section Call.
Variables (callf : nat -> name -> list Z -> hstate -> ares hstate) (ccallf : nat -> list Z -> cstate -> ares cstate).
Variables (r : name) (ps : list Z) (sp : Z) (G0 : vars).
Hypothesis CALL : forall f r vs c h, rok r -> sim ro vn sp G0 c h -> arel (simR ro vn r sp G0) (ccallf f vs c) (callf f r vs h).
Notation scmd := (scmd sev ro lim callf r ps). Notation runk := (runk kcmd hstate scmd).
Notation sim := (sim ro vn sp G0).
Notation chcs := (chcs moff zsz true ccallf). Notation ctst := (ctst moff zsz true ccallf). Notation cswv := (cswv moff zsz true ccallf).
Notation ssimple := (ssimple sev ro lim callf r ps). Notation selem := (selem sev ro lim callf r ps).
Notation sandor := (sandor sev ro lim callf r ps). Notation sclist := (sclist sev ro lim callf r ps).

(* the meaning of a condition without the detour through the grammar *)
Definition tbind (a : tres hstate) (k : bool -> hstate -> tres hstate) : tres hstate :=
  match a with TVal b h => k b h | THalt h => THalt h end.
Definition calls_leaf (l : list hc) (e : xe) (h : hstate) : tres hstate :=
  match runk (map hgen l) h with Norm h1 => sleaf (leaf_of e) h1 | Halt h1 => THalt h1 end.
Fixpoint stc (t : cond) (h : hstate) : tres hstate :=
  match t with
  | CLeaf l e => calls_leaf l e h
  | CLog o a b => tbind (stc a h) (fun x h1 => if Bool.eqb x o then stc b h1 else TVal x h1)
  end.
Lemma addc_run l e : forall c h, sclist (addc vn mn zn c l (ttest (leaf_of e))) h = tbind (sclist c h) (fun _ h1 => calls_leaf l e h1).
Proof.
  induction l as [|x l IH]; intros c h; cbn [addc].
  - cbn [ShProg.sclist]. destruct (sclist c h); reflexivity.
  - rewrite IH. cbn [ShProg.sclist]. destruct (sclist c h) as [b h1|h1]; [|reflexivity].
    cbn [ShProg.sandor ShProg.selem one tcall ShProg.ssimple tbind]. unfold calls_leaf. cbn [map ShStmt.runk].
    destruct (scmd (hgen x) h1); reflexivity.
Qed.
Lemma seqcl_run l e h : sclist (seqcl vn mn zn l (ttest (leaf_of e))) h = calls_leaf l e h.
Proof.
  destruct l as [|x l]; cbn [seqcl]; [reflexivity|]. rewrite addc_run.
  cbn [ShProg.sclist ShProg.sandor ShProg.selem one tcall ShProg.ssimple tbind]. unfold calls_leaf. cbn [map ShStmt.runk].
  destruct (scmd (hgen x) h); reflexivity.
Qed.
Fixpoint runl (o : bool) (es : list elem) (h : hstate) : tres hstate :=
  match es with
  | [] => TVal o h
  | e :: es => tbind (selem e h) (fun b h1 => if Bool.eqb b o then runl o es h1 else TVal b h1)
  end.
Lemma foldl_run o es : forall a h, sandor (foldl o a es) h = tbind (sandor a h) (fun b h1 => if Bool.eqb b o then runl o es h1 else TVal b h1).
Proof.
  induction es as [|e es IH]; intros a h; cbn [foldl runl].
  - destruct (sandor a h) as [b h1|h1]; [|reflexivity]. cbn [tbind]. destruct (Bool.eqb b o) eqn:E; [apply eqb_prop in E; subst|]; reflexivity.
  - rewrite IH. cbn [ShProg.sandor]. destruct (sandor a h) as [b h1|h1]; [|reflexivity]. cbn [tbind].
    destruct (Bool.eqb b o) eqn:E; [reflexivity|]. cbn [tbind]. rewrite E. reflexivity.
Qed.
Lemma runl_app o es fs : forall h, runl o (es ++ fs) h = tbind (runl o es h) (fun b h1 => if Bool.eqb b o then runl o fs h1 else TVal b h1).
Proof.
  induction es as [|e es IH]; intros h; cbn [app runl].
  - cbn [tbind]. rewrite eqb_reflx. reflexivity.
  - destruct (selem e h) as [b h1|h1]; [|reflexivity]. cbn [tbind]. destruct (Bool.eqb b o) eqn:E; [apply IH|]. cbn [tbind]. rewrite E. reflexivity.
Qed.
Lemma chain_run o es h : es <> [] -> sandor (chain o es) h = runl o es h.
Proof.
  destruct es as [|e es]; [congruence|]. intros _. cbn [chain]. rewrite foldl_run. cbn [ShProg.sandor runl]. reflexivity.
Qed.
Lemma elems_ne o t : elems vn mn zn o t <> [].
Proof.
  revert o. induction t as [l e|o' a IHa b IHb]; intros o; cbn [elems]; [discriminate|]. destruct (Bool.eqb o o'); [|discriminate].
  intros E. apply app_eq_nil in E as [E _]. apply (IHa _ E).
Qed.
Lemma runl_one o e h : runl o [e] h = selem e h.
Proof. cbn [runl]. destruct (selem e h) as [b h1|h1]; [|reflexivity]. cbn [tbind]. destruct (Bool.eqb b o) eqn:E; [apply eqb_prop in E; subst|]; reflexivity. Qed.
Lemma elems_run t : forall o h, runl o (elems vn mn zn o t) h = stc t h.
Proof.
  induction t as [l e|o' a IHa b IHb]; intros o h; cbn [elems stc].
  - rewrite runl_one. destruct l as [|x l]; [reflexivity|]. cbn [pelem ShProg.selem]. apply seqcl_run.
  - assert (Q : runl o' (elems vn mn zn o' a ++ elems vn mn zn o' b) h = tbind (stc a h) (fun x h1 => if Bool.eqb x o' then stc b h1 else TVal x h1)).
    { rewrite runl_app, IHa. destruct (stc a h) as [x h1|h1]; [|reflexivity]. cbn [tbind]. destruct (Bool.eqb x o'); [apply IHb|reflexivity]. }
    destruct (Bool.eqb o o') eqn:E.
    + apply eqb_prop in E. subst o'. exact Q.
    + rewrite runl_one. cbn [ShProg.selem ShProg.sclist]. rewrite chain_run; [exact Q|].
      intros X. apply app_eq_nil in X as [X _]. apply (elems_ne _ _ X).
Qed.
Lemma crd_run t h : sclist (crd vn mn zn t) h = stc t h.
Proof.
  destruct t as [l e|o a b]; cbn [crd]; [apply seqcl_run|]. cbn [ShProg.sclist].
  rewrite chain_run by (intros X; apply app_eq_nil in X as [X _]; apply (elems_ne _ _ X)).
  pose proof (elems_run (CLog o a b) o h) as H. cbn [elems] in H. rewrite eqb_reflx in H. exact H.
Qed.

(** ** Leaves *)
Lemma zero_word h c : sim c h -> exists h1, wval (chs [48]) h = Some (0, h1) /\ sim c h1.
Proof.
  intros S. destruct (name_step N sev ro vn mn zn moff zsz SET sp G0 [48] c h S) as (h1 & X & S1). exists h1. split; [|exact S1].
  unfold ShProg.wval. rewrite X. reflexivity.
Qed.
Definition leaf_rel (e : xe) : Prop := forall c h v s R W, sim c h -> okx e = true -> leaf_ok e = true -> cval e (cs c) = Some (v, s, R, W) ->
  exists h1, sleaf (leaf_of e) h = TVal (negb (v =? 0)) h1 /\ sim (sets s c) h1.
Lemma leaf_ne e o c h v s R W : sim c h -> okx e = true -> cval e (cs c) = Some (v, s, R, W) ->
  exists h1, sleaf (Leaf EXCL_EQ (rv e false o) (chs [48])) h = TVal (negb (v =? 0)) h1 /\ sim (sets s c) h1.
Proof.
  intros S Ok E. destruct (wval_step N sev ro vn mn zn moff zsz SET sp G0 e o c h v s R W Ok S E) as (h1 & X & S1).
  destruct (zero_word h1 _ S1) as (h2 & Y & S2). exists h2. split; [|exact S2].
  unfold ShProg.sleaf. rewrite X, Y. reflexivity.
Qed.
Lemma cmp_value op a b v : existsb (Z.eqb op) cmp_ops = true -> carith op a b = Some v -> compare op a b = Some (negb (v =? 0)).
Proof.
  intros H. apply existsb_exists in H as (x & Hx & E). apply Z.eqb_eq in E. subst x. unfold cmp_ops in Hx. cbn [In] in Hx.
  assert (K : forall t, Some (truth t) = Some v -> Some t = Some (negb (v =? 0))) by (intros [] X; inversion X; reflexivity).
  destruct Hx as [<-|[<-|[<-|[<-|[<-|[<-|[]]]]]]].
  - change (carith EQ_EQ a b) with (Some (truth (a =? b))). change (compare EQ_EQ a b) with (Some (a =? b)). apply K.
  - change (carith EXCL_EQ a b) with (Some (truth (negb (a =? b)))). change (compare EXCL_EQ a b) with (Some (negb (a =? b))). apply K.
  - change (carith LT a b) with (Some (truth (a <? b))). change (compare LT a b) with (Some (a <? b)). apply K.
  - change (carith GT a b) with (Some (truth (b <? a))). change (compare GT a b) with (Some (b <? a)). apply K.
  - change (carith LT_EQ a b) with (Some (truth (a <=? b))). change (compare LT_EQ a b) with (Some (a <=? b)). apply K.
  - change (carith GT_EQ a b) with (Some (truth (b <=? a))). change (compare GT_EQ a b) with (Some (b <=? a)). apply K.
Qed.
Lemma leaf_sim e : leaf_rel e.
Proof.
  induction e; intros cc h v s R W S Ok Lk E; try (apply (leaf_ne _ 0 cc h v s R W S Ok E)).
  - apply (IHe cc h v s R W S Ok Lk). exact E.
  - apply (IHe cc h v s R W S Ok Lk). exact E.
  - apply (IHe cc h v s R W S Ok Lk). exact E.
  - cbn [ShProg.leaf_of]. destruct (existsb (Z.eqb op) cmp_ops) eqn:Hop; [|apply (leaf_ne _ 0 cc h v s R W S Ok E)].
    cbn [leaf_ok] in Lk. rewrite andb_true_iff, !negb_true_iff in Lk. destruct Lk as [L1 L2].
    rewrite okx_eq in Ok. rewrite !andb_true_iff in Ok. destruct Ok as [[[[[_ O1] O2] _] _] _].
    unfold ShProg.cval in E. rewrite cev_eq, hst_eq in E. cbv beta iota in E. rewrite L1, L2 in E. cbv beta iota in E.
    unfold cpair in E. destruct (cev moff zsz e1 (cs cc)) as [[[[va sa] Ra] Wa]|] eqn:Ea; [|discriminate].
    destruct (cev moff zsz e2 sa) as [[[[vb sb] Rb] Wb]|] eqn:Eb; [|discriminate].
    destruct (race _ _ _ _); [discriminate|]. destruct (carith op va vb) as [w|] eqn:Ew; [|discriminate].
    cbn [andb orb] in E. unfold ShCSem.hseq in E.
    destruct (hst moff zsz e1 (cs cc)) as [[H1 V1]|] eqn:Eh1; [|discriminate].
    destruct (hst moff zsz e2 sa) as [[H2 V2]|] eqn:Eh2; [|discriminate].
    destruct (_ && _); [|discriminate]. inversion E; subst.
    assert (C1 : cval e1 (cs cc) = Some (va, sa, Ra, Wa)) by (unfold ShProg.cval; rewrite Ea, Eh1; reflexivity).
    assert (C2 : cval e2 sa = Some (vb, s, Rb, Wb)) by (unfold ShProg.cval; rewrite Eb, Eh2; reflexivity).
    destruct (wval_step N sev ro vn mn zn moff zsz SET sp G0 e1 op cc h va sa Ra Wa O1 S C1) as (h1 & X & S1).
    destruct (wval_step N sev ro vn mn zn moff zsz SET sp G0 e2 op (sets sa cc) h1 vb s Rb Wb O2 S1 C2) as (h2 & Y & S2).
    exists h2. split; [|exact S2]. unfold ShProg.sleaf. rewrite X, Y, (cmp_value op va vb v Hop Ew). reflexivity.
Qed.
Theorem tst_sim t : forall c h, ok_cond t = true -> sim c h -> trel sim (ctst t c) (stc t h).
Proof.
  induction t as [l e|o a IHa b IHb]; intros c h Ok S; cbn [ok_cond ShProg.ctst stc] in *; rewrite !andb_true_iff in Ok.
  - destruct Ok as [[O1 O2] O3]. unfold calls_leaf.
    pose proof (hcs_sim N sev ro vn mn zn moff zsz lim SET callf ccallf r ps sp G0 CALL l c h O1 S) as H.
    destruct (chcs l c) as [c1|c1]; cbn [ShLock.arel] in H.
    + destruct H as [h1 [-> S1]]. destruct (cval e (cs c1)) as [[[[v s] R] W]|] eqn:E; [|left; reflexivity].
      destruct (leaf_sim e c1 h1 v s R W S1 O2 O3 E) as (h2 & -> & S2). eexists. split; [reflexivity|exact S2].
    + destruct H as [H|[h1 [-> H]]]; [left; exact H|right; eauto].
  - destruct Ok as [O1 O2]. pose proof (IHa c h O1 S) as H. destruct (ctst a c) as [x c1|c1]; cbn [ShLock.trel] in H.
    + destruct H as [h1 [-> S1]]. cbn [tbind]. destruct (Bool.eqb x o); [apply IHb; assumption|]. eexists. split; [reflexivity|exact S1].
    + destruct H as [H|[h1 [-> H]]]; [left; exact H|right; eexists; split; [reflexivity|exact H]].
Qed.
Theorem val_sim v c h : ok_sval v = true -> sim c h ->
  vrel sim (cswv v c) (match runk (vgen vn mn zn v) h with Norm h1 => sword sev ro vn mn zn v h1 | Halt h1 => VHalt h1 end).
Proof.
  intros Ok S. unfold ok_sval in Ok. apply andb_true_iff in Ok as [O1 O2]. unfold ShProg.cswv, vgen.
  pose proof (hcs_sim N sev ro vn mn zn moff zsz lim SET callf ccallf r ps sp G0 CALL (fst v) c h O1 S) as H.
  destruct (chcs (fst v) c) as [c1|c1]; cbn [ShLock.arel] in H.
  - destruct H as [h1 [-> S1]]. destruct (cval (snd v) (cs c1)) as [[[[z s] R] W]|] eqn:E; [|left; reflexivity].
    destruct (wval_step N sev ro vn mn zn moff zsz SET sp G0 (snd v) 0 c1 h1 z s R W O2 S1 E) as (h2 & X & S2).
    unfold sword. rewrite X. eexists. split; [reflexivity|exact S2].
  - destruct H as [H|[h1 [-> H]]]; [left; exact H|right; eauto].
Qed.
End Call.

(** ** Case patterns *)
Lemma pat_ok p h z : spat sev ro vn mn zn p h z = (z =? ckval p).
Proof.
  destruct p as [e Hp]. unfold spat. cbn [pe]. pose proof Hp as Ho. unfold okp in Ho. apply andb_true_iff in Ho as [Ok Sh].
  assert (K : cev moff zsz e (fun _ => 0) = Some (ckval (PC e Hp), fun _ => 0, [], []) /\ hst moff zsz e (fun _ => 0) = Some ([], [])).
  { unfold ckval. cbn [pe]. rewrite cev_eq, hst_eq. destruct e; try discriminate Sh; try (split; reflexivity).
    destruct e; try discriminate Sh. cbv beta iota. rewrite cev_eq, hst_eq. cbv beta iota. split; [|reflexivity].
    rewrite okx_eq in Ok. cbv beta iota in Ok. rewrite !andb_true_iff in Ok. destruct Ok as [[[_ O1] _] O2].
    rewrite okx_eq in O1. cbv beta iota in O1. rewrite andb_true_iff, Z.leb_le, Z.ltb_lt in O1.
    destruct (op =? MINUS) eqn:Em; [|discriminate]. apply Z.eqb_eq in Em. subst op. cbn [cmap].
    unfold cunary, chk, inint. change (MINUS =? MINUS) with true. cbv iota.
    destruct (Z.leb_spec (- 2 ^ 31) (- n)); [|lia]. destruct (Z.ltb_spec (- n) (2 ^ 31)); [reflexivity|lia]. }
  destruct K as [K1 K2]. destruct (Ph_all N HN vn mn zn moff zsz NK e) as (_ & B & _).
  destruct (B 0 (fun _ => 0) _ _ _ _ _ _ (overlay (hg h)) Ok K1 K2 (over_cst N sev ro vn mn zn moff zsz SET (hg h))) as (g3 & X & _ & _);
    [intros l []|].
  unfold ShProg.wexp. rewrite (st_shell _ _ _ _ _ _ _ _ SET _ _ _ _ X).
  destruct (list_eq_dec Z.eq_dec (decimal (ckval (PC e Hp))) (decimal z)) as [E|E].
  - apply decimal_inj_all in E. symmetry. apply Z.eqb_eq. congruence.
  - symmetry. apply Z.eqb_neq. congruence.
Qed.
End Sim.
