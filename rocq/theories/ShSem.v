(** * Expressions compiled to shell arithmetic mean what C says (main induction) *)
From Coq Require Import ZArith List Lia Bool.
From Verif Require Import Base Numerals Output Ast Parse ShArith ShExpr ShCSem ShEqs ShFacts ShFacts2 ShSyn.
Import ListNotations.
Open Scope Z_scope.

(** ** C side: what is not written does not change *)
Section Frame.
Variables (moff zsz : nat -> Z).
Notation cev := (cev moff zsz). Notation clv := (clv moff zsz).
Definition same (W : list loc) (s s' : store) : Prop := forall l, ~ In l W -> s' l = s l.
Definition rok (s : store) (r : res) : Prop := forall v s' R W, r = Some (v, s', R, W) -> same W s s'.
Definition lok (s : store) (r : lres) : Prop := forall v s' R W, r = Some (v, s', R, W) -> same W s s'.

Lemma same_app A B s s1 s2 : same A s s1 -> same B s1 s2 -> same (A ++ B) s s2.
Proof. intros H1 H2 l H. rewrite H2, H1; auto; intros X; apply H, in_or_app; auto. Qed.
Lemma same_refl W s : same W s s. Proof. intros l _. reflexivity. Qed.
Lemma rok_ret s v R W : rok s (Some (v, s, R, W)).
Proof. intros v' s' R' W' E. inversion E; subst. apply same_refl. Qed.
Lemma cpair_ok s ra rb f : rok s ra -> (forall s1, rok s1 (rb s1)) -> rok s (cpair ra rb f).
Proof.
  intros Ha Hb v s' R W E. unfold cpair in E. destruct ra as [[[[va sa] Ra] Wa]|]; [|discriminate].
  destruct (rb sa) as [[[[vb sb] Rb] Wb]|] eqn:Eb; [|discriminate].
  destruct (race _ _ _ _); [discriminate|]. destruct (f va vb); [|discriminate]. inversion E; subst.
  eapply same_app; [eapply Ha; reflexivity|eapply Hb; eauto].
Qed.
Lemma cthen_ok s ra k : rok s ra -> (forall v s1, rok s1 (k v s1)) -> rok s (cthen ra k).
Proof.
  intros Ha Hb v s' R W E. unfold cthen in E. destruct ra as [[[[va sa] Ra] Wa]|]; [|discriminate].
  destruct (k va sa) as [[[[vb sb] Rb] Wb]|] eqn:Eb; [|discriminate]. inversion E; subst.
  eapply same_app; [eapply Ha; reflexivity|eapply Hb; eauto].
Qed.
Lemma cmap_ok s ra f : rok s ra -> rok s (cmap ra f).
Proof.
  intros Ha v s' R W E. unfold cmap in E. destruct ra as [[[[va sa] Ra] Wa]|]; [|discriminate].
  destruct (f va); [|discriminate]. inversion E; subst. eapply Ha; reflexivity.
Qed.
Lemma at_ok s ra : rok s ra -> lok s (at_addr ra).
Proof.
  intros Ha v s' R W E. unfold at_addr in E. destruct ra as [[[[va sa] Ra] Wa]|]; [|discriminate].
  destruct (0 <=? va); [|discriminate]. inversion E; subst. eapply Ha; reflexivity.
Qed.
Lemma load_ok s rl : lok s rl -> rok s (load rl).
Proof.
  intros Ha v s' R W E. unfold load in E. destruct rl as [[[[va sa] Ra] Wa]|]; [|discriminate].
  destruct (mem va Wa); [discriminate|]. inversion E; subst. eapply Ha; reflexivity.
Qed.
Lemma upd_other l v s m : m <> l -> upd l v s m = s m.
Proof. intros H. unfold upd. destruct (loc_eq_dec m l); tauto. Qed.
Lemma upd_same l v s : upd l v s l = v.
Proof. unfold upd. destruct (loc_eq_dec l l); tauto. Qed.
Lemma modify_ok s rl f p : lok s rl -> rok s (modify rl f p).
Proof.
  intros Ha v s' R W E. unfold modify in E. destruct rl as [[[[va sa] Ra] Wa]|]; [|discriminate].
  destruct (mem va Wa); [discriminate|]. destruct (f (sa va)); [|discriminate]. inversion E; subst.
  intros l H. rewrite upd_other; [|intros ->; apply H; left; reflexivity].
  eapply Ha; [reflexivity|]. intros X. apply H. right. exact X.
Qed.
Lemma cev_clv_ok e : (forall s, rok s (cev e s)) /\ (forall s, lok s (clv e s)).
Proof.
  induction e; (split; intros s; [rewrite cev_eq|rewrite clv_eq]; cbv beta iota);
    repeat match goal with H : _ /\ _ |- _ => destruct H end;
    try (intros ? ? ? ? E; discriminate E); try (intros ? ? ? ? E; inversion E; subst; apply same_refl); auto.
  all: try (destruct (_ && _); [apply rok_ret|intros ? ? ? ? E; discriminate E]).
  all: try (apply load_ok); try (apply at_ok); try (apply cmap_ok); try apply modify_ok; auto.
  all: try (apply cpair_ok; auto; fail).
  all: try (apply cthen_ok; auto; fail).
  - intros v s' R W E. destruct (clv e s) as [[[[[x|a] s1] R1] W1]|] eqn:El; try discriminate.
    inversion E; subst. eapply H0; eauto.
  - destruct (op =? AMP_AMP); [|destruct (op =? BAR_BAR)].
    + apply cthen_ok; auto. intros v s1. destruct (v =? 0); [apply rok_ret|apply cmap_ok; auto].
    + apply cthen_ok; auto. intros v s1. destruct (v =? 0); [apply cmap_ok; auto|apply rok_ret].
    + apply cpair_ok; auto.
  - intros v s' R W E. destruct (clv e1 s) as [[[[l s1] Ra] Wa]|] eqn:El; [|discriminate].
    destruct (cev e2 s1) as [[[[vb s2] Rb] Wb]|] eqn:Eb; [|discriminate].
    destruct (_ || _); [discriminate|].
    assert (S2 : same (Wa ++ Wb) s s2) by (eapply same_app; [eapply H2; eauto|eapply H; eauto]).
    assert (U : forall w, same (l :: Wa ++ Wb) s (upd l w s2)).
    { intros w m Hm. rewrite upd_other; [apply S2|]; intros X; apply Hm; [right; auto|left; auto]. }
    destruct (op =? EQ); [inversion E; subst; apply U|].
    destruct (asg_op op); [|discriminate]. destruct (carith z (s2 l) vb); [|discriminate]. inversion E; subst. apply U.
  - apply cthen_ok; auto. intros v s1. destruct (v =? 0); auto.
Qed.
End Frame.

Lemma mem_false l W : mem l W = false -> ~ In l W.
Proof. unfold mem. destruct (in_dec _ _ _); [discriminate|auto]. Qed.
Lemma disj_spec A B l : disj A B = true -> In l A -> In l B -> False.
Proof.
  unfold disj. intros H HA HB. rewrite forallb_forall in H. specialize (H l HA). apply negb_true_iff, mem_false in H. tauto.
Qed.

(** ** The names *)
Section Sem.
Variable N : Z.
Hypothesis HN : 32 <= N.
Variables (vn mn zn : nat -> name) (moff zsz : nat -> Z).
Notation cev := (cev moff zsz). Notation clv := (clv moff zsz).
Notation hst := (hst moff zsz). Notation hlv := (hlv moff zsz). Notation had := (had moff zsz).
Notation hz := (hz moff zsz). Notation zlv := (zlv moff zsz). Notation zad := (zad moff zsz).
Notation rv := (comp_rvalue_go vn mn zn). Notation lv := (comp_lvalue vn mn zn). Notation la := (comp_lvalue_address vn mn zn).

(* the shell variable of a memory location *)
Definition nm (l : loc) : name := match l with LV x => vn x | LC a => 95 :: decimal a end.
(* shell variables with constant values: characters, member offsets, structure sizes *)
Inductive cn : name -> Z -> Prop :=
| cn_chr c : named c = true -> cn (character_ident c) c
| cn_mem k : cn (mn k) (moff k)
| cn_siz k : cn (zn k) (zsz k).
Record names_ok : Prop := {
  nk_vi : forall x, is_ident (vn x);
  nk_mi : forall k, is_ident (mn k);
  nk_zi : forall k, is_ident (zn k);
  nk_vinj : forall x y, vn x = vn y -> x = y;
  nk_vcell : forall x a, vn x <> 95 :: decimal a;
  nk_mcell : forall k a, mn k <> 95 :: decimal a;
  nk_zcell : forall k a, zn k <> 95 :: decimal a;
  nk_vconst : forall x n v, cn n v -> vn x <> n }.
Hypothesis NK : names_ok.

Lemma decimal_head v : exists c r, decimal v = c :: r /\ c <> 95.
Proof.
  destruct (Z.ltb_spec v 0).
  - rewrite decimal_neg by lia. eexists _, _. split; [reflexivity|lia].
  - destruct (decimal_ok v H) as [V _]. destruct (decimal v) as [|c r]; [discriminate|].
    exists c, r. split; [reflexivity|]. intros ->. cbn in V. discriminate.
Qed.
Lemma decimal_inj_all a b : decimal a = decimal b -> a = b.
Proof.
  intros E. destruct (Z.ltb_spec a 0), (Z.ltb_spec b 0).
  - rewrite (decimal_neg a), (decimal_neg b) in E by lia. inversion E as [E2]. apply decimal_inj in E2; lia.
  - rewrite decimal_neg in E by lia. pose proof (decimal_word b H0) as W. rewrite <- E in W. discriminate.
  - rewrite (decimal_neg b) in E by lia. pose proof (decimal_word a H) as W. rewrite E in W. discriminate.
  - apply decimal_inj in E; lia.
Qed.
Lemma nm_inj a b : nm a = nm b -> a = b.
Proof.
  destruct a as [x|a], b as [y|b]; cbn [nm]; intros E.
  - f_equal. eapply nk_vinj; eauto.
  - exfalso. eapply nk_vcell; eauto.
  - exfalso. eapply nk_vcell; eauto.
  - f_equal. inversion E. apply decimal_inj_all; auto.
Qed.
Lemma nm_const l n v : cn n v -> nm l <> n.
Proof.
  intros C. destruct l as [x|a]; cbn [nm]; [eapply nk_vconst; eauto|].
  destruct C.
  - unfold character_ident. cbn [app]. intros E. destruct (decimal_head a) as (d & r & Ed & X). rewrite Ed in E.
    inversion E. congruence.
  - apply not_eq_sym, nk_mcell, NK.
  - apply not_eq_sym, nk_zcell, NK.
Qed.
Lemma nm_cell_ident a : 0 <= a -> is_ident (95 :: decimal a).
Proof. intros H. split; [reflexivity|]. cbn [forallb]. rewrite decimal_word; auto. Qed.
Lemma chr_ident c : named c = true -> is_ident (character_ident c).
Proof.
  unfold named. rewrite !andb_true_iff. intros [[H1 H2] _]. apply Z.leb_le in H1. apply Z.ltb_lt in H2.
  assert (F : forallb (fun k => forallb is_word (character_ident (Z.of_nat k))) (seq 0 128) = true) by (vm_compute; reflexivity).
  rewrite forallb_forall in F. split.
  - reflexivity.
  - rewrite <- (Z2Nat.id c) by lia. apply F. apply in_seq. lia.
Qed.

(** ** Shell states and C stores *)
Definition cst (g : vars) : Prop := forall n v, cn n v -> g n = v.
Definition agree (S : list loc) (g : vars) (s : store) : Prop := forall l, In l S -> g (nm l) = s l.
Definition off (W : list loc) (g g' : vars) : Prop := forall n, (forall l, In l W -> nm l <> n) -> g' n = g n.
Lemma off_refl W g : off W g g. Proof. intros n _. reflexivity. Qed.
Lemma off_app A B g g1 g2 : off A g g1 -> off B g1 g2 -> off (A ++ B) g g2.
Proof. intros H1 H2 n H. rewrite H2, H1; auto; intros l Hl; apply H, in_or_app; auto. Qed.
Lemma off_mono A B g g' : incl A B -> off A g g' -> off B g g'.
Proof. intros I H n Hn. apply H. intros l Hl. apply Hn, I, Hl. Qed.
Lemma off_nm W g g' l : off W g g' -> ~ In l W -> g' (nm l) = g (nm l).
Proof. intros H Hl. apply H. intros m Hm E. apply nm_inj in E. subst. tauto. Qed.
Lemma off_cst W g g' : off W g g' -> cst g -> cst g'.
Proof. intros H C n v Hn. rewrite H; [apply C; auto|]. intros l _. eapply nm_const; eauto. Qed.
Lemma off_nil W g g1 g2 : off [] g g1 -> off W g1 g2 -> off W g g2.
Proof. intros H1 H2. apply (off_app [] W g g1 g2 H1 H2). Qed.
Lemma agree_app A B g s : agree (A ++ B) g s <-> agree A g s /\ agree B g s.
Proof.
  split.
  - intros H. split; intros l Hl; apply H, in_or_app; auto.
  - intros [H1 H2] l Hl. apply in_app_or in Hl as [Hl|Hl]; auto.
Qed.
Lemma setv_same n v g : setv n v g n = v.
Proof. unfold setv. destruct (list_eq_dec _ _ _); tauto. Qed.
Lemma setv_other n v g m : m <> n -> setv n v g m = g m.
Proof. intros H. unfold setv. destruct (list_eq_dec _ _ _); tauto. Qed.
Lemma setv_off l v g : off [l] g (setv (nm l) v g).
Proof. intros n H. apply setv_other. intros ->. apply (H l); [left|]; reflexivity. Qed.

(* [f], run in any state that agrees with [s] on what it reads late and with [g1] on what was written early *)
Definition Sem (R W V : list loc) (s s' : store) (v : Z) (g1 : vars) (f : den) : Prop :=
  forall g2, cst g2 -> (forall l, In l R -> ~ In l V -> g2 (nm l) = s l) -> (forall l, In l V -> g2 (nm l) = g1 (nm l)) ->
  exists g3, f g2 = Some (v, g3) /\ agree W g3 s' /\ off W g2 g3.

Lemma Sem_deq R W V s s' v g1 f f' : deq f f' -> Sem R W V s s' v g1 f -> Sem R W V s s' v g1 f'.
Proof. intros D H g2 C HR HV. destruct (H g2 C HR HV) as (g3 & E & X). exists g3. rewrite <- D. auto. Qed.

(* operand b after operand a *)
Lemma pair_sem s sa sb Ra Wa Va Rb Wb Vb g0 g1 g1' va vb fa fb :
  same Wa s sa -> same Wb sa sb -> incl Va Wa -> incl Vb Wb ->
  (forall l, In l Vb -> In l (Ra ++ Wa) -> False) ->
  off Va g0 g1 -> off Vb g1 g1' ->
  Sem Ra Wa Va s sa va g1 fa -> Sem Rb Wb Vb sa sb vb g1' fb ->
  forall g2, cst g2 -> (forall l, In l (Ra ++ Rb) -> ~ In l (Va ++ Vb) -> g2 (nm l) = s l) ->
    (forall l, In l (Va ++ Vb) -> g2 (nm l) = g1' (nm l)) ->
  exists ga gb, fa g2 = Some (va, ga) /\ off Wa g2 ga /\ agree Wa ga sa /\
    fb ga = Some (vb, gb) /\ agree (Wa ++ Wb) gb sb /\ off (Wa ++ Wb) g2 gb.
Proof.
  intros Ss Sb Ia Ib Dv O1 O2 Sa Sbb g2 C HR HV.
  destruct (Sa g2 C) as (ga & Ea & Aa & Oa).
  - intros l Hl Hn. apply HR; [apply in_or_app; auto|]. intros X. apply in_app_or in X as [X|X]; [tauto|].
    apply (Dv l X). apply in_or_app; auto.
  - intros l Hl. rewrite HV by (apply in_or_app; auto). eapply off_nm; [exact O2|].
    intros X. apply (Dv l X). apply in_or_app; auto.
  - destruct (Sbb ga) as (gb & Eb & Ab & Ob).
    + eapply off_cst; eauto.
    + intros l Hl Hn. destruct (in_dec loc_eq_dec l Wa) as [Hw|Hw]; [apply Aa; auto|].
      rewrite (off_nm _ _ _ _ Oa Hw). rewrite HR; [symmetry; apply Ss; auto|apply in_or_app; auto|].
      intros X. apply in_app_or in X as [X|X]; [apply Hw, Ia, X|tauto].
    + intros l Hl. rewrite (off_nm _ _ _ _ Oa); [apply HV, in_or_app; auto|].
      intros X. apply (Dv l Hl). apply in_or_app; auto.
    + exists ga, gb. repeat split; auto.
      * apply agree_app. split; auto. intros l Hl. destruct (in_dec loc_eq_dec l Wb) as [Hw|Hw]; [apply Ab; auto|].
        rewrite (off_nm _ _ _ _ Ob Hw). rewrite (Aa l Hl). symmetry. apply Sb; auto.
      * eapply off_app; eauto.
Qed.

(* one full run: expand, then evaluate *)
Lemma full_sem R W V s s' v g0 g1 f : cst g0 -> agree R g0 s -> off V g0 g1 -> Sem R W V s s' v g1 f -> incl V W ->
  exists g3, f g1 = Some (v, g3) /\ agree W g3 s' /\ off W g0 g3.
Proof.
  intros C A O S I. destruct (S g1) as (g3 & E & A3 & O3).
  - eapply off_cst; eauto.
  - intros l Hl Hn. rewrite (off_nm _ _ _ _ O Hn). apply A, Hl.
  - intros l Hl. reflexivity.
  - exists g3. repeat split; auto. intros n Hn. rewrite O3 by auto. apply O. intros l Hl. apply Hn, I, Hl.
Qed.
End Sem.
