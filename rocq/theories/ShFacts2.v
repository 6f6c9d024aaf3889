(** * Shell arithmetic: the meaning of a text is unique; reassociation; texts with a meaning *)
From Coq Require Import ZArith List Lia Bool.
From stdpp Require countable.
From Verif Require Import Base Ast EvalConst Parse Grammar PropParse ShArith ShFacts.
Import ListNotations.
Open Scope Z_scope.

(** ** The grammar is unambiguous: it is a part of C's (Grammar.v, C14) *)
Definition code (n : name) : Z := Zpos (countable.encode n).
Lemma code_inj a b : code a = code b -> a = b.
Proof. unfold code. intros [= H]. apply countable.encode_inj in H. exact H. Qed.
Definition tokz (t : tok) : Z * Z :=
  match t with TNum v => (INTEGER, v) | TName n => (IDENTIFIER, code n) | TOp op => (op, 0) end.
Fixpoint tree (t : at_) : ast :=
  match t with
  | ANum v => new_ast0 INTEGER v
  | AVar n => new_ast0 IDENTIFIER (code n)
  | APar t => new_ast1 PARENS (tree t)
  | AUn op t => new_ast1 op (tree t)
  | ABin op a b => new_ast2 op (tree a) (tree b)
  | ACond c a b => new_ast3 QUEST (tree c) (tree a) (tree b)
  | AAsg op n t => new_ast2 op (new_ast0 IDENTIFIER (code n)) (tree t)
  | AComma a b => new_ast2 COMMA (tree a) (tree b)
  end.
(* operators a derivation can carry *)
Fixpoint okt (t : at_) : Prop :=
  match t with
  | ANum _ | AVar _ => True
  | APar t => okt t
  | AUn op t => In op unops /\ okt t
  | ABin op a b => (exists k, In op (binops k)) /\ okt a /\ okt b
  | ACond c a b => okt c /\ okt a /\ okt b
  | AAsg op n t => In op assign_ops /\ okt t
  | AComma a b => okt a /\ okt b
  end.
Lemma AG_okt k ts t : AG k ts t -> okt t.
Proof. induction 1; cbn; eauto. Qed.
Lemma binops_not k op : In op (binops k) -> ~ In op assign_ops /\ op <> COMMA.
Proof.
  intros H. do 11 (destruct k as [|k]; [cbn in H; repeat (destruct H as [<- | H]; [split; [cbn; intuition discriminate | discriminate]|]); contradiction|]).
  contradiction.
Qed.
Lemma asg_not_comma op : In op assign_ops -> op <> COMMA.
Proof. intros H. cbn in H. repeat (destruct H as [<- | H]; [discriminate|]). contradiction. Qed.
Lemma un_not_par op : In op unops -> op <> PARENS.
Proof. intros H. cbn in H. repeat (destruct H as [<- | H]; [discriminate|]). contradiction. Qed.
Lemma tree_inj a : forall b, okt a -> okt b -> tree a = tree b -> a = b.
Proof.
  induction a; intros [ ] Ha Hb E; cbn [tree okt] in *; try discriminate E; unfold new_ast0, new_ast1, new_ast2, new_ast3 in E;
    inversion E; subst;
    repeat match goal with H : _ /\ _ |- _ => destruct H | H : exists _, _ |- _ => destruct H end.
  all: try match goal with H : In PARENS unops |- _ => exfalso; eapply un_not_par; eauto; fail end.
  all: try match goal with H : In ?o (binops _) |- _ => apply binops_not in H as [? ?] end.
  all: try match goal with H : In COMMA assign_ops |- _ => exfalso; eapply asg_not_comma; eauto; fail end.
  all: try contradiction; try congruence.
  all: try match goal with H : countable.encode _ = countable.encode _ |- _ => apply countable.encode_inj in H; subst end.
  all: f_equal; auto.
Qed.

Definition nt (k : nat) : gnt :=
  match k with
  | 11%nat => GCond | 12%nat => GAssign | 13%nat => GExpr
  | 0%nat => GUnary | _ => GBin k
  end.
Lemma AG_G sh td join k ts t : AG k ts t -> (k <= 13)%nat -> G sh td join (nt k) (map tokz ts) (OE (tree t)).
Proof.
  induction 1; intros Hk.
  - apply g_unary, g_post, g_leaf. reflexivity.
  - apply g_unary, g_post, g_leaf. reflexivity.
  - apply g_unary, g_post. cbn [map tokz tree]. rewrite map_app. apply g_paren. apply IHAG. lia.
  - cbn [map tokz tree nt]. apply g_unop; [|apply g_cast0, IHAG; lia].
    cbn in H |- *. intuition.
  - rewrite map_app. cbn [map tokz tree].
    assert (nt (S k) = GBin (S k)) as E. { do 10 (destruct k as [|k]; [reflexivity|]). lia. }
    rewrite E in *. apply g_bin; auto.
    specialize (IHAG2 ltac:(lia)). destruct k as [|k]; [apply g_bin0, g_cast0; exact IHAG2|].
    do 10 (destruct k as [|k]; [exact IHAG2|]). lia.
  - rewrite map_app. cbn [map]. rewrite map_app. cbn [map tokz tree nt]. apply g_cond; [apply IHAG1|apply IHAG2|apply IHAG3]; lia.
  - cbn [map tokz tree nt]. apply (g_assign _ _ _ [(IDENTIFIER, code n)]); auto.
    apply g_unary, g_post, g_leaf. reflexivity.
  - rewrite map_app. cbn [map tokz tree nt]. apply g_comma; [apply IHAG1 | apply IHAG2]; lia.
  - specialize (IHAG ltac:(lia)).
    destruct k as [|k]; [apply g_binS, g_bin0, g_cast0; exact IHAG|].
    do 9 (destruct k as [|k]; [apply g_binS; exact IHAG|]).
    destruct k as [|k]; [apply g_cond0; exact IHAG|].
    destruct k as [|k]; [apply g_assign0; exact IHAG|].
    destruct k as [|k]; [apply g_expr0; exact IHAG|]. lia.
Qed.
Lemma AG_fun ts t1 t2 : AG 13 ts t1 -> AG 13 ts t2 -> t1 = t2.
Proof.
  intros H1 H2. apply tree_inj; eauto using AG_okt.
  eapply (c14_unambiguous false (fun _ => None) Z.add); eapply (AG_G _ _ _ 13); eauto.
Qed.

Section Den.
Variable N : Z.
Scheme exp_mind := Minimality for exp Sort Prop with ari_mind := Minimality for ari Sort Prop.
Lemma exp_ari_fun :
  (forall t s l s', exp N t s l s' -> forall l2 s2, exp N t s l2 s2 -> l = l2 /\ s' = s2) /\
  (forall t s v s', ari N t s v s' -> forall v2 s2, ari N t s v2 s2 -> v = v2 /\ s' = s2).
Proof.
  assert (A : forall (P : list item -> vars -> list Z -> vars -> Prop) (Q : list item -> vars -> Z -> vars -> Prop), 
     (forall t s l s', exp N t s l s' -> P t s l s') -> (forall t s v s', ari N t s v s' -> Q t s v s') ->
     (forall t s l s', exp N t s l s' -> P t s l s') /\ (forall t s v s', ari N t s v s' -> Q t s v s')) by tauto.
  apply A; [
    apply (exp_mind N (fun t s l s' => forall l2 s2, exp N t s l2 s2 -> l = l2 /\ s' = s2)
                      (fun t s v s' => forall v2 s2, ari N t s v2 s2 -> v = v2 /\ s' = s2)) |
    apply (ari_mind N (fun t s l s' => forall l2 s2, exp N t s l2 s2 -> l = l2 /\ s' = s2)
                      (fun t s v s' => forall v2 s2, ari N t s v2 s2 -> v = v2 /\ s' = s2))].
  all: intros.
  all: try match goal with
  | H : exp N [] _ _ _ |- _ => inversion H; subst; auto
  | H : exp N (Ch _ :: _) _ _ _ |- _ => inversion H; subst
  | H : exp N (Pv _ :: _) _ _ _ |- _ => inversion H; subst
  | H : exp N (Ar _ :: _) _ _ _ |- _ => inversion H; subst
  | H : ari N _ _ _ _ |- _ => inversion H; subst
  end.
  all: try match goal with
  | IH : forall l2 s2, exp N ?t ?s l2 s2 -> _, H : exp N ?t ?s _ _ |- _ => destruct (IH _ _ H); subst; auto
  end.
  all: try match goal with
  | IH : forall v2 s2, ari N ?t ?s v2 s2 -> _, H : ari N ?t ?s _ _ |- _ =>
      destruct (IH _ _ H); subst
  end.
  all: try match goal with
  | IH : forall l2 s2, exp N ?t ?s l2 s2 -> _, H : exp N ?t ?s _ _ |- _ => destruct (IH _ _ H); subst; auto
  end.
  all: match goal with
  | H1 : lexr ?l ?a, H2 : lexr ?l ?b |- _ => rewrite (lexr_fun _ _ H1 _ H2) in *
  end.
  all: match goal with
  | H1 : AG 13 ?l ?a, H2 : AG 13 ?l ?b |- _ => rewrite (AG_fun _ _ _ H1 H2) in *
  end.
  all: match goal with H1 : aev _ ?a ?b = Some _, H2 : aev _ ?a ?b = Some _ |- _ => rewrite H1 in H2; inversion H2 end.
  all: auto.
Qed.
Lemma exp_app a : forall b s l1 s1 l2 s2, exp N a s l1 s1 -> exp N b s1 l2 s2 -> exp N (a ++ b) s (l1 ++ l2) s2.
Proof.
  induction a as [|i a IH]; intros b s l1 s1 l2 s2 H1 H2; inversion H1; subst; cbn [app]; auto.
  - constructor. eauto.
  - rewrite <- app_assoc. constructor. eauto.
  - rewrite <- app_assoc. econstructor; eauto.
Qed.
Lemma exp_chs l : forall s, exp N (map Ch l) s l s.
Proof. induction l; intros; cbn; constructor; auto. Qed.

(** ** Arithmetic modulo 2^N *)
Hypothesis HN : 32 <= N.
Lemma wrapN_small v : - 2 ^ (N - 1) <= v < 2 ^ (N - 1) -> wrapN N v = v.
Proof.
  intros H. unfold wrapN. assert (2 ^ N = 2 * 2 ^ (N - 1)) by (rewrite <- Z.pow_succ_r by lia; f_equal; lia).
  rewrite Z.mod_small; lia.
Qed.
Lemma wrapN_int v : - 2 ^ 31 <= v < 2 ^ 31 -> wrapN N v = v.
Proof.
  intros H. apply wrapN_small. pose proof (Z.pow_le_mono_r 2 31 (N - 1)). lia.
Qed.
Lemma wrapN_congr a b : (exists k, a = b + k * 2 ^ N) -> wrapN N a = wrapN N b.
Proof.
  intros (k & ->). unfold wrapN. f_equal. replace (b + k * 2 ^ N + 2 ^ (N - 1)) with (b + 2 ^ (N - 1) + k * 2 ^ N) by ring.
  apply Z.mod_add. pose proof (Z.pow_pos_nonneg 2 N). lia.
Qed.
Lemma wrapN_is a : exists k, wrapN N a = a + k * 2 ^ N.
Proof.
  unfold wrapN. pose proof (Z.pow_pos_nonneg 2 N).
  exists (- ((a + 2 ^ (N - 1)) / 2 ^ N)). pose proof (Z.div_mod (a + 2 ^ (N - 1)) (2 ^ N)). lia.
Qed.
Lemma arith_assoc o o1 o2 a b c :
  (o = PLUS /\ (o1 = PLUS \/ o1 = MINUS)) \/ (o = o1 /\ In o [STAR; AMP; CARET; BAR]) -> o2 = o1 ->
  match arith N o1 b c with Some w => arith N o a w | None => None end =
  match arith N o a b with Some w => arith N o1 w c | None => None end.
Proof.
  intros H ->.
  assert (P : arith N PLUS = fun a b => Some (wrapN N (a + b))) by reflexivity.
  assert (M : arith N MINUS = fun a b => Some (wrapN N (a - b))) by reflexivity.
  assert (S : arith N STAR = fun a b => Some (wrapN N (a * b))) by reflexivity.
  assert (A : arith N AMP = fun a b => Some (Z.land a b)) by reflexivity.
  assert (X : arith N CARET = fun a b => Some (Z.lxor a b)) by reflexivity.
  assert (O : arith N BAR = fun a b => Some (Z.lor a b)) by reflexivity.
  destruct H as [[-> [-> | ->]] | [<- H]].
  - rewrite P. f_equal. apply wrapN_congr. destruct (wrapN_is (b + c)) as (k & ->), (wrapN_is (a + b)) as (j & ->).
    exists (k - j). ring.
  - rewrite P, M. f_equal. apply wrapN_congr. destruct (wrapN_is (b - c)) as (k & ->), (wrapN_is (a + b)) as (j & ->).
    exists (k - j). ring.
  - cbn in H. destruct H as [<- | [<- | [<- | [<- | []]]]].
    + rewrite S. f_equal. apply wrapN_congr. destruct (wrapN_is (b * c)) as (k & ->), (wrapN_is (a * b)) as (j & ->).
      exists (a * k - j * c). ring.
    + rewrite A. f_equal. rewrite Z.land_assoc. reflexivity.
    + rewrite X. f_equal. rewrite Z.lxor_assoc. reflexivity.
    + rewrite O. f_equal. rewrite Z.lor_assoc. reflexivity.
Qed.
Lemma dop_assoc o o1 f g h :
  (o = PLUS /\ (o1 = PLUS \/ o1 = MINUS)) \/ (o = o1 /\ In o [STAR; AMP; CARET; BAR]) ->
  forall s, dop N o f (dop N o1 g h) s = dop N o1 (dop N o f g) h s.
Proof.
  intros H s. pose proof (fun a b c => arith_assoc o o1 o1 a b c H eq_refl) as A. unfold dop.
  destruct (f s) as [[a s1]|]; [|reflexivity]. destruct (g s1) as [[b s2]|]; [|reflexivity].
  destruct (arith N o a b) eqn:E.
  - destruct (h s2) as [[c s3]|]; [|reflexivity]. specialize (A a b c). rewrite E in A.
    destruct (arith N o1 b c); rewrite <- A; reflexivity.
  - destruct (h s2) as [[c s3]|]; [|reflexivity]. specialize (A a b c). rewrite E in A.
    destruct (arith N o1 b c); [rewrite A|]; reflexivity.
Qed.
Lemma truth_truth w : truth (negb (truth (negb (w =? 0)) =? 0)) = truth (negb (w =? 0)).
Proof. destruct (w =? 0); reflexivity. Qed.
Lemma dand_assoc f g h s : dand f (dand g h) s = dand (dand f g) h s.
Proof.
  unfold dand. destruct (f s) as [[a s1]|]; [|reflexivity]. destruct (a =? 0) eqn:E; [reflexivity|].
  destruct (g s1) as [[b s2]|]; [|reflexivity].
  destruct (b =? 0) eqn:E2; cbn [negb truth].
  - reflexivity.
  - change (1 =? 0) with false. cbn iota. destruct (h s2) as [[c s3]|]; [|reflexivity]. rewrite truth_truth. reflexivity.
Qed.
Lemma dor_assoc f g h s : dor f (dor g h) s = dor (dor f g) h s.
Proof.
  unfold dor. destruct (f s) as [[a s1]|]; [|reflexivity]. destruct (a =? 0) eqn:E; [|reflexivity].
  destruct (g s1) as [[b s2]|]; [|reflexivity].
  destruct (b =? 0) eqn:E2; cbn [negb truth].
  - change (0 =? 0) with true. cbn iota. destruct (h s2) as [[c s3]|]; [|reflexivity]. rewrite truth_truth. reflexivity.
  - change (1 =? 0) with false. reflexivity.
Qed.

(** ** Levels with one more step: products only *)
Inductive mchain : list tok -> at_ -> Prop :=
| mc_one ts t : AG 0 ts t -> mchain ts t
| mc_mul t1 a t2 b : mchain t1 a -> AG 0 t2 b -> mchain (t1 ++ TOp STAR :: t2) (ABin STAR a b).
Definition AGx (l : nat) : list tok -> at_ -> Prop :=
  match l with O => AG 0 | S O => mchain | S k => AG k end.
Lemma mchain_AG ts t : mchain ts t -> AG 1 ts t.
Proof. induction 1; [apply ag_up; [lia|auto]|]. apply ag_bin; auto; [lia|cbn; auto]. Qed.
Lemma AG_le k l ts t : (k <= l)%nat -> (l <= 13)%nat -> AG k ts t -> AG l ts t.
Proof. induction 1; auto. intros Hl H0. apply ag_up; [lia|]. apply IHle; [lia|auto]. Qed.
Lemma AGx_le k l ts t : (k <= l)%nat -> (l <= 14)%nat -> AGx k ts t -> AGx l ts t.
Proof.
  intros H1 H2 H. destruct l as [|[|l]].
  - replace k with 0%nat in H by lia. exact H.
  - destruct k as [|[|k]]; [apply mc_one; exact H|exact H|lia].
  - cbn [AGx]. destruct k as [|[|k]]; cbn [AGx] in H.
    + eapply (AG_le 0); eauto; lia.
    + eapply (AG_le 1); eauto using mchain_AG; lia.
    + eapply (AG_le (S k)); eauto; lia.
Qed.
Lemma AGx_AG k ts t : (k <= 14)%nat -> AGx k ts t -> AG 13 ts t.
Proof. intros H H0. apply (AGx_le k 14 ts t); auto. Qed.

(* dens up to pointwise equality *)
Definition deq (f g : den) : Prop := forall s, f s = g s.
Lemma dbin_deq op f f' g g' : deq f f' -> deq g g' -> deq (dbin N op f g) (dbin N op f' g').
Proof.
  intros H1 H2 s. unfold dbin.
  destruct (op =? AMP_AMP); [unfold dand | destruct (op =? BAR_BAR); [unfold dor | unfold dop]]; rewrite H1;
    destruct (f' s) as [[v s1]|]; try rewrite H2; reflexivity.
Qed.
Lemma mchain_reassoc ta a tb b : mchain ta a -> mchain tb b ->
  exists t, mchain (ta ++ TOp STAR :: tb) t /\ deq (aev N t) (dbin N STAR (aev N a) (aev N b)).
Proof.
  intros Ha Hb. revert ta a Ha. induction Hb as [ts t H|t1 x t2 y H1 IH H2]; intros ta a Ha.
  - exists (ABin STAR a t). split; [apply mc_mul; auto|]. intros s. reflexivity.
  - destruct (IH _ _ Ha) as (t & M & E). exists (ABin STAR t y). split.
    + replace (ta ++ TOp STAR :: t1 ++ TOp STAR :: t2) with ((ta ++ TOp STAR :: t1) ++ TOp STAR :: t2)
        by (rewrite <- app_assoc; reflexivity).
      apply mc_mul; auto.
    + intros s. cbn [aev]. rewrite (dbin_deq _ _ _ _ _ E (fun _ => eq_refl)).
      symmetry. apply dop_assoc. right. split; [reflexivity|cbn; auto].
Qed.
(* sums: the right operand may be a sum or difference *)
Lemma AG_ind_level k ts t : AG k ts t -> forall j, k = S j -> (j < 10)%nat ->
  (AG j ts t) \/ exists op t1 a t2 b, In op (binops (S j)) /\ AG (S j) t1 a /\ AG j t2 b /\ ts = t1 ++ TOp op :: t2 /\ t = ABin op a b.
Proof.
  destruct 1; intros j E Hj; try discriminate; try lia.
  - inversion E; subst. right. exists op, t1, a, t2, b. auto.
  - inversion E; subst. left. auto.
Qed.
Lemma reassoc k op : (k < 10)%nat ->
  (op = PLUS /\ k = 1%nat) \/ (binops (S k) = [op] /\ In op [AMP; CARET; BAR; AMP_AMP; BAR_BAR]) ->
  In op (binops (S k)) ->
  forall n ta a tb b, (length tb <= n)%nat -> AG (S k) ta a -> AG (S k) tb b ->
  exists t, AG (S k) (ta ++ TOp op :: tb) t /\ deq (aev N t) (dbin N op (aev N a) (aev N b)).
Proof.
  intros Hk Hop Hin. induction n; intros ta a tb b Hn Ha Hb.
  - destruct (AG_ind_level _ _ _ Hb k eq_refl Hk) as [H | (o & t1 & x & t2 & y & I & H1 & H2 & -> & ->)].
    + exists (ABin op a b). split; [apply ag_bin; auto|]. intros s. reflexivity.
    + rewrite app_length in Hn. cbn in Hn. lia.
  - destruct (AG_ind_level _ _ _ Hb k eq_refl Hk) as [H | (o & t1 & x & t2 & y & I & H1 & H2 & -> & ->)].
    + exists (ABin op a b). split; [apply ag_bin; auto|]. intros s. reflexivity.
    + destruct (IHn ta a t1 x) as (t & M & E); auto.
      { rewrite app_length in Hn. cbn in Hn. lia. }
      exists (ABin o t y). split.
      * replace (ta ++ TOp op :: t1 ++ TOp o :: t2) with ((ta ++ TOp op :: t1) ++ TOp o :: t2)
          by (rewrite <- app_assoc; reflexivity).
        apply ag_bin; auto.
      * intros s. cbn [aev]. rewrite (dbin_deq _ _ _ _ _ E (fun _ => eq_refl)). symmetry.
        destruct Hop as [[-> ->] | [B L]].
        -- cbn in I. destruct I as [<- | [<- | []]].
           ++ apply (dop_assoc PLUS PLUS). auto.
           ++ apply (dop_assoc PLUS MINUS). auto.
        -- rewrite B in I. destruct I as [<- | []]. cbn in L.
           destruct L as [<- | [<- | [<- | [<- | [<- | []]]]]].
           ++ apply (dop_assoc AMP AMP). right. split; [reflexivity | cbn; tauto].
           ++ apply (dop_assoc CARET CARET). right. split; [reflexivity | cbn; tauto].
           ++ apply (dop_assoc BAR BAR). right. split; [reflexivity | cbn; tauto].
           ++ apply dand_assoc.
           ++ apply dor_assoc.
Qed.
End Den.
