(** * Global declarations: the text of a constant expression gives its C value *)
From Coq Require Import ZArith List Lia Bool.
From Verif Require Import Base Numerals Output Ast Parse ShArith ShExpr ShCSem ShEqs ShFacts ShFacts2 ShSyn ShSem ShMain ShMain2 ShMain3 ShMain6 PropShArith ShGlobal ShGlobal1.
Import ListNotations.
Open Scope Z_scope.
Local Notation length := List.length.

Section K.
Variable c : nat -> option Z.
(* which offsets and sizes does not matter *)
Lemma kx_any moff zsz moff' zsz' e : kx c e = true -> forall s, cev moff zsz e s = cev moff' zsz' e s.
Proof.
  induction e; intros K s; cbn [kx] in K; try discriminate; rewrite (cev_eq moff zsz), (cev_eq moff' zsz'); cbv beta iota; try reflexivity.
  - auto.
  - auto.
  - auto.
  - rewrite IHe by auto. reflexivity.
  - apply andb_true_iff in K as [K1 K2].
    assert (F : forall s1, cev moff zsz e2 s1 = cev moff' zsz' e2 s1) by (intros; auto).
    rewrite (IHe1 K1). unfold cthen, cpair.
    destruct (cev moff' zsz' e1 s) as [[[[va sa] Ra] Wa]|]; [rewrite !F|]; reflexivity.
  - apply andb_true_iff in K as [K K3]. apply andb_true_iff in K as [K1 K2].
    rewrite (IHe1 K1). unfold cthen.
    destruct (cev moff' zsz' e1 s) as [[[[va sa] Ra] Wa]|]; [rewrite IHe2, IHe3 by auto|]; reflexivity.
Qed.
Section M.
Variables (moff zsz : nat -> Z).
Notation cev := (cev moff zsz). Notation hst := (hst moff zsz). Notation hz := (hz moff zsz).
Definition reads_c (R : list loc) : Prop := forall l, In l R -> exists x, l = LV x /\ c x <> None.
Lemma reads_app A B : reads_c A -> reads_c B -> reads_c (A ++ B).
Proof. intros HA HB l Hl. apply in_app_or in Hl as [Hl|Hl]; auto. Qed.
Lemma kx_cev e : kx c e = true -> forall s v s' R W, cev e s = Some (v, s', R, W) -> s' = s /\ W = [] /\ reads_c R.
Proof.
  assert (Nil : reads_c []) by (intros l []).
  assert (Mp : forall r f s v s' R W, cmap r f = Some (v, s', R, W) -> (forall v s' R W, r = Some (v, s', R, W) -> s' = s /\ W = [] /\ reads_c R) -> s' = s /\ W = [] /\ reads_c R).
  { intros r f s v s' R W E X. unfold cmap in E. destruct r as [[[[va sa] Ra] Wa]|]; [|discriminate]. destruct (f va); [|discriminate].
    injection E as <- <- <- <-. eapply X. reflexivity. }
  induction e; intros K s v s' R W E; cbn [kx] in K; try discriminate; rewrite cev_eq in E; cbv beta iota in E.
  1-3: injection E as <- <- <- <-; auto.
  - injection E as <- <- <- <-. split; [reflexivity|]. split; [reflexivity|]. intros l [<-|[]]. exists x. split; [reflexivity|].
    destruct (c x); [discriminate|discriminate].
  - eauto.
  - eauto.
  - eauto.
  - eapply Mp; [exact E|]. intros; eauto.
  - injection E as <- <- <- <-; auto.
  - apply andb_true_iff in K as [K1 K2].
    assert (Th : forall k, cthen (cev e1 s) k = Some (v, s', R, W) -> (forall va sa v s' R W, k va sa = Some (v, s', R, W) -> s' = sa /\ W = [] /\ reads_c R) -> s' = s /\ W = [] /\ reads_c R).
    { intros k E' X. unfold cthen in E'. destruct (cev e1 s) as [[[[va sa] Ra] Wa]|] eqn:E1; [|discriminate].
      destruct (k va sa) as [[[[vb sb] Rb] Wb]|] eqn:E2; [|discriminate]. injection E' as <- <- <- <-.
      destruct (IHe1 K1 _ _ _ _ _ E1) as (-> & -> & Q1). destruct (X _ _ _ _ _ _ E2) as (-> & -> & Q2). auto using reads_app. }
    destruct (op =? AMP_AMP); [|destruct (op =? BAR_BAR)].
    + eapply Th; [exact E|]. cbv beta. intros va sa v1 s1 R1 W1 E1. destruct (va =? 0); [injection E1 as <- <- <- <-; auto|].
      eapply Mp; [exact E1|]. intros; eauto.
    + eapply Th; [exact E|]. cbv beta. intros va sa v1 s1 R1 W1 E1. destruct (va =? 0); [|injection E1 as <- <- <- <-; auto].
      eapply Mp; [exact E1|]. intros; eauto.
    + unfold cpair in E. destruct (cev e1 s) as [[[[va sa] Ra] Wa]|] eqn:E1; [|discriminate].
      destruct (cev e2 sa) as [[[[vb sb] Rb] Wb]|] eqn:E2; [|discriminate]. destruct (race _ _ _ _); [discriminate|].
      destruct (carith op va vb); [|discriminate]. injection E as <- <- <- <-.
      destruct (IHe1 K1 _ _ _ _ _ E1) as (-> & -> & Q1). destruct (IHe2 K2 _ _ _ _ _ E2) as (-> & -> & Q2). auto using reads_app.
  - apply andb_true_iff in K as [K K3]. apply andb_true_iff in K as [K1 K2]. unfold cthen in E.
    destruct (cev e1 s) as [[[[va sa] Ra] Wa]|] eqn:E1; [|discriminate].
    match type of E with match ?k with _ => _ end = _ => destruct k as [[[[vb sb] Rb] Wb]|] eqn:E2; [|discriminate] end.
    injection E as <- <- <- <-. destruct (IHe1 K1 _ _ _ _ _ E1) as (-> & -> & Q1).
    assert (Q : sb = s /\ Wb = [] /\ reads_c Rb) by (destruct (va =? 0); eauto). destruct Q as (-> & -> & Q2). auto using reads_app.
Qed.
Lemma kx_hz e : kx c e = true -> forall s, hz e s = Some [].
Proof.
  induction e; intros K s; cbn [kx] in K; try discriminate; rewrite hz_eq; cbv beta iota; auto.
  - apply andb_true_iff in K as [K1 K2]. rewrite IHe1, IHe2 by auto. reflexivity.
  - apply andb_true_iff in K as [K K3]. apply andb_true_iff in K as [K1 K2]. rewrite IHe1, IHe2, IHe3 by auto. reflexivity.
Qed.
Lemma kx_hst e : kx c e = true -> forall s r, cev e s = Some r -> hst e s = Some ([], []).
Proof.
  assert (Hs : forall R, hseq R [] (Some ([], [])) (Some ([], [])) = Some ([], [])) by reflexivity.
  induction e; intros K s r E; cbn [kx] in K; try discriminate; rewrite hst_eq; rewrite cev_eq in E; cbv beta iota in *; try reflexivity; eauto.
  - unfold cmap in E. destruct (cev e s) as [[[[va sa] Ra] Wa]|] eqn:E1; [|discriminate]. eauto.
  - apply andb_true_iff in K as [K1 K2].
    assert (P : exists p, cev e1 s = Some p).
    { destruct (cev e1 s) as [p|] eqn:E1; [eauto|]. destruct (op =? AMP_AMP); [|destruct (op =? BAR_BAR)]; unfold cthen, cpair in E; discriminate. }
    destruct P as [[[[va sa] Ra] Wa] E1]. rewrite E1. rewrite E1 in E. destruct (kx_cev e1 K1 _ _ _ _ _ E1) as (-> & -> & _).
    rewrite (IHe1 K1 _ _ E1), (kx_hz e2 K2).
    destruct (((op =? AMP_AMP) && (va =? 0)) || ((op =? BAR_BAR) && negb (va =? 0))) eqn:B; [reflexivity|].
    apply orb_false_iff in B as [B1 B2].
    assert (P2 : exists p, cev e2 s = Some p).
    { destruct (cev e2 s) as [p|] eqn:E2; [eauto|]. destruct (op =? AMP_AMP); [|destruct (op =? BAR_BAR)]; unfold cthen, cpair in E.
      - cbn [andb] in B1. rewrite B1, E2 in E. discriminate.
      - cbn [andb] in B2. apply negb_false_iff in B2. rewrite B2, E2 in E. discriminate.
      - rewrite E2 in E. discriminate. }
    destruct P2 as [p E2]. rewrite (IHe2 K2 _ _ E2). reflexivity.
  - apply andb_true_iff in K as [K K3]. apply andb_true_iff in K as [K1 K2]. unfold cthen in E.
    destruct (cev e1 s) as [[[[va sa] Ra] Wa]|] eqn:E1; [|discriminate].
    destruct (kx_cev e1 K1 _ _ _ _ _ E1) as (-> & -> & _). rewrite (IHe1 K1 _ _ E1), (kx_hz e2 K2).
    destruct (va =? 0).
    + destruct (cev e3 s) as [p|] eqn:E3; [|discriminate]. rewrite (IHe3 K3 _ _ E3). reflexivity.
    + destruct (cev e2 s) as [[[[vb sb] Rb] Wb]|] eqn:E2; [|discriminate]. destruct (kx_cev e2 K2 _ _ _ _ _ E2) as (-> & -> & _).
      rewrite (IHe2 K2 _ _ E2), (kx_hz e3 K3). reflexivity.
Qed.
End M.

(** ** The text *)
Section T.
Variables (vn mn zn : nat -> name).
Hypothesis VI : forall x, is_ident (vn x).
Notation rv := (comp_rvalue_go vn mn zn).
Definition An (n : name) : Prop := exists x, c x <> None /\ n = vn x.
Notation good := (good An).
Lemma good_nil : good [].
Proof. intros n []. Qed.
Lemma good_app p x a b : is_word x = false -> forallb (fun c => negb (is_word c)) p = true -> good a -> good b -> good (a ++ (x :: p) ++ b).
Proof. intros Hx Hp Ga Gb n Hn. rewrite words_opsr in Hn by auto. apply in_app_or in Hn as [Hn|Hn]; auto. Qed.
Lemma good_num w : forallb is_word w = true -> digword w -> good w.
Proof.
  intros Hw Hd n Hn. destruct w as [|x w]; [destruct Hn|]. rewrite (words_word (x :: w) [] Hw) in Hn by discriminate.
  destruct Hn as [<-|[]]. auto.
Qed.
Lemma good_var x : c x <> None -> good (vn x).
Proof.
  intros Hx n Hn. destruct (VI x) as [I1 I2]. rewrite (words_word (vn x) [] I2) in Hn by (destruct (vn x); [destruct I1|discriminate]).
  destruct Hn as [<-|[]]. right. exists x. auto.
Qed.
Lemma good_dec n : 0 <= n -> good (decimal n).
Proof.
  intros Hn. apply good_num; [apply decimal_word; auto|]. destruct (dec_head n Hn) as (d & r & -> & Hd). cbn [digword].
  cbn [In] in Hd. destruct Hd as [<-|[<-|[<-|[<-|[<-|[<-|[<-|[<-|[<-|[<-|[]]]]]]]]]]]; reflexivity.
Qed.
Lemma good_tok l n : forallb is_word l = true -> word_tok l (TNum n) -> good l.
Proof. intros Hl Ht. apply good_num; [exact Hl|]. inversion Ht; subst; cbn [digword]; solve [assumption | reflexivity]. Qed.
Definition arl (w : list item) : Prop := exists l, w = chs l /\ good l.
Lemma arl_par b o i w : arl w -> arl (wrap_if_needed b true w o i).
Proof.
  intros (l & -> & G). unfold wrap_if_needed. destruct (_ && _); [|exists l; auto]. exists ([40] ++ l ++ [41]).
  split; [unfold chs; rewrite !map_app; reflexivity|].
  pose proof (good_app [] 41 l [] eq_refl eq_refl G good_nil) as G1. rewrite app_nil_r in G1.
  exact (good_app [] 40 [] (l ++ [41]) eq_refl eq_refl good_nil G1).
Qed.
Lemma arl_bin a b p : p <> [] -> forallb (fun c => negb (is_word c)) p = true -> arl a -> arl b -> arl (a ++ chs p ++ b).
Proof.
  intros Np Hp (la & -> & Ga) (lb & -> & Gb). exists (la ++ p ++ lb). split; [unfold chs; rewrite !map_app; reflexivity|].
  destruct p as [|x p]; [congruence|]. cbn [forallb] in Hp. apply andb_true_iff in Hp as [H1 H2]. apply negb_true_iff in H1.
  exact (good_app p x la lb H1 H2 Ga Gb).
Qed.
Lemma op_ops op : existsb (Z.eqb op) all_binops = true -> forallb (fun c => negb (is_word c)) ([32] ++ op_chars op ++ [32]) = true.
Proof.
  intros H. apply existsb_exists in H as (o & Ho & E). apply Z.eqb_eq in E. subst o.
  assert (F : forallb (fun op => forallb (fun c => negb (is_word c)) ([32] ++ op_chars op ++ [32])) all_binops = true) by (vm_compute; reflexivity).
  rewrite forallb_forall in F. exact (F _ Ho).
Qed.
Lemma arl_nil : arl [].
Proof. exists []. split; [reflexivity|apply good_nil]. Qed.
Lemma kx_arith e : kx c e = true -> okx e = true -> forall o, arl (rv e true o).
Proof.
  induction e; intros K Ok o; cbn [kx] in K; try discriminate; rewrite comp_rvalue_go_eq; rewrite okx_eq in Ok; cbv beta iota in *.
  - apply lit_range in Ok. rewrite wrap_int_dec by exact Ok. exists (decimal n). split; [reflexivity|]. apply good_dec. lia.
  - apply lit_range in Ok. apply arl_par. destruct (hex_ok n Ok) as (l & E & W & T). rewrite E. exists l. split; [reflexivity|]. eapply good_tok; eauto.
  - apply lit_range in Ok. apply arl_par. destruct (oct_ok n Ok) as (l & E & W & T). rewrite E. exists l. split; [reflexivity|]. eapply good_tok; eauto.
  - exists (vn x). split; [reflexivity|]. apply good_var. destruct (c x); discriminate.
  - auto.
  - auto.
  - auto.
  - rewrite !andb_true_iff in Ok. destruct Ok as [[[Op Ok] _] Om].
    assert (G : arl (wrap_if_needed false true (chs [op] ++ rv e true op) o op)).
    { apply arl_par. apply (arl_bin [] (rv e true op) [op]); [discriminate| |apply arl_nil|auto].
      cbn [existsb] in Op. rewrite !orb_true_iff, !Z.eqb_eq in Op. destruct Op as [->|[->|[->|Op]]]; [reflexivity|reflexivity|reflexivity|discriminate]. }
    destruct e; try exact G. destruct (op =? MINUS) eqn:Em; [|discriminate]. rewrite okx_eq in Ok. cbv beta iota in Ok. apply lit_range in Ok.
    rewrite wrap_int_neg by exact Ok. destruct (Z.eq_dec n 0) as [->|Hn].
    + exists (decimal 0). split; [reflexivity|]. apply good_dec. lia.
    + rewrite decimal_neg by lia. exists ([45] ++ decimal n). split; [rewrite ?Z.opp_involutive; reflexivity|].
      exact (good_app [] 45 [] (decimal n) eq_refl eq_refl good_nil (good_dec n (proj1 Ok))).
  - rewrite wrap_int_dec by lia. exists (decimal 1). split; [reflexivity|]. apply good_dec. lia.
  - rewrite !andb_true_iff in Ok. destruct Ok as [[[[[Op O1] O2] _] _] _]. apply andb_true_iff in K as [K1 K2].
    apply arl_par. apply arl_bin; [discriminate|apply op_ops, Op|auto|auto].
  - rewrite !andb_true_iff in Ok. destruct Ok as [[O1 O2] O3]. apply andb_true_iff in K as [K K3]. apply andb_true_iff in K as [K1 K2].
    apply arl_par. apply (arl_bin (rv e1 true QUEST) (rv e2 true QUEST ++ chs [58; 32] ++ rv e3 true QUEST) ([32] ++ op_chars QUEST ++ [32])); [discriminate|vm_compute; reflexivity|auto|].
    apply arl_bin; [discriminate|reflexivity|auto|auto].
Qed.
Inductive shape : list item -> Prop :=
| sh_ar w : arl w -> shape [Ar w]
| sh_chs l : shape (chs l)
| sh_var x : c x <> None -> shape [Pv (vn x)].
Lemma kx_base e : kx c e = true -> okx e = true -> forall o, shape (rv e false o).
Proof.
  induction e; intros K Ok o; cbn [kx] in K; try discriminate; rewrite comp_rvalue_go_eq.
  - apply sh_chs.
  - pose proof (kx_arith (XHex n) K Ok 0) as G. rewrite comp_rvalue_go_eq in G. apply sh_ar. exact G.
  - pose proof (kx_arith (XOct n) K Ok 0) as G. rewrite comp_rvalue_go_eq in G. apply sh_ar. exact G.
  - apply sh_var. destruct (c x); discriminate.
  - rewrite okx_eq in Ok. auto.
  - rewrite okx_eq in Ok. auto.
  - rewrite okx_eq in Ok. auto.
  - pose proof (kx_arith (XUn op e) K Ok 0) as G. rewrite comp_rvalue_go_eq in G. cbv beta iota in *. destruct e; try (apply sh_ar; exact G).
    apply sh_chs.
  - apply sh_chs.
  - pose proof (kx_arith (XBin op e1 e2) K Ok 0) as G. rewrite comp_rvalue_go_eq in G. apply sh_ar. exact G.
  - pose proof (kx_arith (XCond e1 e2 e3) K Ok 0) as G. rewrite comp_rvalue_go_eq in G. apply sh_ar. exact G.
Qed.

(** ** The value *)
Section V.
Variable N : Z.
Hypothesis HN : 32 <= N.
Variables (moff zsz : nat -> Z).
Hypothesis NK : names_ok vn mn zn moff zsz.
Definition isch (n : name) : bool := existsb (fun k => if list_eq_dec Z.eq_dec (character_ident (Z.of_nat k)) n then named (Z.of_nat k) else false) (seq 0 128).
Definition with_chars (g : vars) : vars := fun n => if isch n then chr_of n else g n.
Lemma isch_chr k : named k = true -> isch (character_ident k) = true /\ chr_of (character_ident k) = k.
Proof.
  intros Hk. split.
  - pose proof (named_range k Hk) as R. apply in_map_iff in R as (j & <- & Hj). apply existsb_exists. exists j. split; [exact Hj|].
    destruct (list_eq_dec _ _ _); [exact Hk|congruence].
  - pose proof (proj1 (forallb_forall _ _) all_fine k (named_range k Hk)) as F. unfold chr_fine in F. rewrite Hk in F.
    rewrite !andb_true_iff in F. destruct F as [[F1 _] _]. apply Z.eqb_eq in F1. exact F1.
Qed.
Lemma isch_var x : isch (vn x) = false.
Proof.
  destruct (isch (vn x)) eqn:E; [exfalso|reflexivity]. apply existsb_exists in E as (k & _ & E).
  destruct (list_eq_dec _ _ _) as [Q|]; [|discriminate]. exact (nk_vconst _ _ _ _ _ NK x _ _ (cn_chr _ _ _ _ _ E) (eq_sym Q)).
Qed.
Theorem kvalue_exp e v g : kvalue moff zsz c e = Some v -> (forall x w, c x = Some w -> g (vn x) = w) ->
  exists g1, exp N (rv e false 0) g (decimal v) g1 /\ forall n, g1 n = g n.
Proof.
  intros Kv G. unfold kvalue in Kv. destruct (kx c e && okx e) eqn:B; [|discriminate]. apply andb_true_iff in B as [K Ok].
  destruct (cev moff zsz e (kstore c)) as [[[[v' s'] R] W]|] eqn:E; [|discriminate]. injection Kv as ->.
  set (h := with_chars g). set (moff' := fun k => h (mn k)). set (zsz' := fun k => h (zn k)).
  rewrite (kx_any moff zsz moff' zsz' e K) in E.
  assert (NK' : names_ok vn mn zn moff' zsz').
  { destruct NK. constructor; auto. intros x n w Cn. destruct Cn; [eapply nk_vconst; constructor 1; eauto|eapply nk_vconst; apply cn_mem|eapply nk_vconst; apply cn_siz]. }
  assert (C : cst mn zn moff' zsz' h).
  { intros n w Cn. destruct Cn as [k Hk|k|k]; [|reflexivity|reflexivity]. unfold h, with_chars. destruct (isch_chr k Hk) as [-> ->]. reflexivity. }
  destruct (kx_cev moff' zsz' e K _ _ _ _ _ E) as (-> & -> & RC).
  assert (Hv : forall x w, c x = Some w -> h (vn x) = w).
  { intros x w Hx. unfold h, with_chars. rewrite isch_var. auto. }
  assert (Ag : agree vn (R ++ []) h (kstore c)).
  { intros l Hl. rewrite app_nil_r in Hl. destruct (RC l Hl) as (x & -> & Hx). cbn [nm kstore]. destruct (c x) as [w|] eqn:Ex; [auto|congruence]. }
  destruct (c19_partial N vn mn zn moff' zsz' e (kstore c) v (kstore c) R [] [] [] h HN NK' Ok E (kx_hst moff' zsz' e K _ _ E) C Ag) as [(h1 & X & _ & O) _].
  assert (O1 : forall n, h1 n = h n) by (intros n; apply O; intros l []).
  assert (EQ : eqon An h g). { intros n (x & Hx & ->). unfold h, with_chars. rewrite isch_var. reflexivity. }
  destruct (kx_base e K Ok 0) as [w (l & -> & Gl)|l|x Hx].
  - inversion X as [| | |a v1 t s s1 l1 s2 Xa Xt]; subst. inversion Xt; subst.
    match goal with Xa : ari N _ _ _ _ |- _ => destruct (ari_local N An l h g _ _ Gl EQ Xa) as (g1 & Xg & Q1 & Q2) end.
    exists g1. split; [econstructor; [exact Xg|constructor]|].
    intros n. destruct (Q2 n) as [Hn|Hn]; [|exact Hn]. rewrite <- (Q1 n Hn), O1. apply EQ, Hn.
  - destruct (exp_chs_inv N _ _ _ _ X) as [-> _]. exists g. split; [apply exp_chs|auto].
  - inversion X as [| |n t s l1 s2 Xt|]; subst. inversion Xt; subst. exists g. split; [|auto].
    rewrite (EQ (vn x)) by (exists x; auto). constructor. constructor.
Qed.
End V.
End T.
End K.
