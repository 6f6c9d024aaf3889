(** * Global declarations: constant expressions read nothing but the constants *)
From Coq Require Import ZArith List Lia Bool.
From Verif Require Import Base Numerals Output Ast Parse ShArith ShExpr ShCSem ShEqs ShFacts ShFacts2 ShSyn ShSem ShMain ShMain2 ShMain3 ShMain6 PropShArith ShGlobal.
Import ListNotations.
Open Scope Z_scope.
Local Notation length := List.length.

(** ** Words of a text *)
Fixpoint words (w l : list Z) : list (list Z) :=
  match l with
  | [] => match w with [] => [] | _ => [w] end
  | c :: r => if is_word c then words (w ++ [c]) r else match w with [] => words [] r | _ => w :: words [] r end
  end.
Lemma words_app c r : is_word c = false -> forall a w, words w (a ++ c :: r) = words w a ++ words [] r.
Proof.
  intros Hc. induction a as [|d a IH]; intros w; cbn [app words].
  - rewrite Hc. destruct w; reflexivity.
  - destruct (is_word d); [apply IH|]. destruct w; rewrite IH; reflexivity.
Qed.
Lemma words_nil c r : is_word c = false -> words [] (c :: r) = words [] r.
Proof. intros Hc. cbn [words]. rewrite Hc. reflexivity. Qed.
Lemma words_word w : forall p, forallb is_word w = true -> p ++ w <> [] -> words p w = [p ++ w].
Proof.
  induction w as [|c w IH]; intros p Hw Hn.
  - rewrite app_nil_r in *. destruct p; [congruence|reflexivity].
  - cbn [forallb] in Hw. apply andb_true_iff in Hw as [H1 H2]. cbn [words]. rewrite H1, IH; auto.
    + rewrite <- app_assoc. reflexivity.
    + rewrite <- app_assoc. destruct p; discriminate.
Qed.
Lemma words_ops p : forallb (fun c => negb (is_word c)) p = true -> forall r, words [] (p ++ r) = words [] r.
Proof.
  induction p as [|c p IH]; intros Hp r; [reflexivity|]. cbn [forallb] in Hp. apply andb_true_iff in Hp as [H1 H2].
  cbn [app]. rewrite words_nil by (apply negb_true_iff, H1). apply IH, H2.
Qed.
Lemma words_opsr p c : is_word c = false -> forallb (fun c => negb (is_word c)) p = true -> forall a r, words [] (a ++ (c :: p) ++ r) = words [] a ++ words [] r.
Proof. intros Hc Hp a r. cbn [app]. rewrite words_app by exact Hc. rewrite words_ops; auto. Qed.
Lemma op_table_ops p op : In (p, op) op_table -> forallb (fun c => negb (is_word c)) p = true.
Proof.
  intros H. assert (F : forallb (fun '(p, _) => forallb (fun c => negb (is_word c)) p) op_table = true) by (vm_compute; reflexivity).
  rewrite forallb_forall in F. exact (F _ H).
Qed.
Lemma lexr_words l ts : lexr l ts -> forall n, In (TName n) ts -> In n (words [] l).
Proof.
  induction 1 as [|r ts _ IH|w t r ts Hw Hr Ht _ IH|p op r ts Hp _ _ IH]; intros n Hn.
  - destruct Hn.
  - rewrite words_nil by reflexivity. auto.
  - assert (Nw : w <> []). { intros ->. inversion Ht as [? [X _]| | | |]; try discriminate; auto. }
    assert (E : words [] (w ++ r) = w :: words [] r).
    { destruct r as [|c r].
      - rewrite app_nil_r. rewrite (words_word w []) by auto. reflexivity.
      - rewrite words_app by exact Hr. rewrite (words_word w []) by auto. rewrite words_nil by exact Hr. reflexivity. }
    rewrite E. destruct Hn as [Hn|Hn]; [|right; auto]. subst t. inversion Ht; subst. left. reflexivity.
  - rewrite words_ops by (eapply op_table_ops; eauto). destruct Hn as [Hn|Hn]; [discriminate|auto].
Qed.
Fixpoint avars (t : at_) : list name :=
  match t with
  | ANum _ => [] | AVar n => [n] | APar t | AUn _ t => avars t | ABin _ a b | AComma a b => avars a ++ avars b
  | ACond c a b => avars c ++ avars a ++ avars b | AAsg _ n t => n :: avars t
  end.
Lemma AG_vars k ts t : AG k ts t -> forall n, In n (avars t) -> In (TName n) ts.
Proof.
  induction 1; intros m Hm; cbn [avars] in Hm; try (now destruct Hm); auto.
  - destruct Hm as [->|[]]. left. reflexivity.
  - right. apply in_or_app. auto.
  - right. auto.
  - apply in_app_or in Hm as [Hm|Hm]; apply in_or_app; [left|right; right]; auto.
  - apply in_app_or in Hm as [Hm|Hm]; apply in_or_app; [left; auto|]. right. right. apply in_or_app.
    apply in_app_or in Hm as [Hm|Hm]; [left|right; right]; auto.
  - destruct Hm as [->|Hm]; [left; reflexivity|right; right; auto].
  - apply in_app_or in Hm as [Hm|Hm]; apply in_or_app; [left|right; right]; auto.
Qed.

(** ** The value depends on the names only *)
Section Local.
Variable N : Z.
Variable A : name -> Prop.
Definition eqon (g h : vars) : Prop := forall n, A n -> g n = h n.
Definition locd (f : den) : Prop := forall g h v g1, eqon g h -> f g = Some (v, g1) -> exists h1, f h = Some (v, h1) /\ eqon g1 h1 /\ forall n, A n \/ h1 n = h n.
Lemma aev_loc t : (forall n, In n (avars t) -> A n) -> locd (aev N t).
Proof.
  assert (Q : forall g h (v v' : Z) g1, eqon g h -> Some (v, g) = Some (v', g1) -> exists h1, Some (v, h) = Some (v', h1) /\ eqon g1 h1 /\ forall n, A n \/ h1 n = h n).
  { intros g h v v' g1 X E. injection E as <- <-. exists h. auto. }
  assert (St : forall f (k : Z -> den), locd f -> (forall v, locd (k v)) -> locd (fun s => match f s with Some (v, s1) => k v s1 | None => None end)).
  { intros f k Lf Lk g h v g1 X E. destruct (f g) as [[w g2]|] eqn:Ef; [|discriminate].
    destruct (Lf g h w g2 X Ef) as (h2 & E2 & X2 & O2). rewrite E2. destruct (Lk w g2 h2 v g1 X2 E) as (h1 & E1 & X1 & O1).
    exists h1. split; [exact E1|]. split; [exact X1|]. intros n. destruct (O1 n) as [Q1|Q1]; [auto|]. destruct (O2 n) as [Q2|Q2]; [auto|]. right. congruence. }
  assert (Rt : forall o : option Z, locd (fun s => match o with Some v => Some (v, s) | None => None end)).
  { intros [w|] g h v g1 X E; [|discriminate]. eapply Q; eauto. }
  induction t as [v|n|t IH|op t IH|op a IHa b IHb|c IHc a IHa b IHb|op n t IH|a IHa b IHb]; intros V; cbn [aev]; cbn [avars] in V.
  - intros g h v' g1 X E. eapply Q; eauto.
  - intros g h v' g1 X E. rewrite <- (X n) by (apply V; left; reflexivity). eapply Q; eauto.
  - auto.
  - unfold dun. apply (St (aev N t) (fun v s1 => match unary N op v with Some w => Some (w, s1) | None => None end)); [auto|]. intros w. apply Rt.
  - assert (La : locd (aev N a)) by (apply IHa; intros; apply V, in_or_app; auto).
    assert (Lb : locd (aev N b)) by (apply IHb; intros; apply V, in_or_app; auto).
    unfold dbin. destruct (op =? AMP_AMP); [|destruct (op =? BAR_BAR)].
    + unfold dand. apply (St (aev N a) (fun v s1 => if v =? 0 then Some (0, s1) else match aev N b s1 with Some (w, s2) => Some (truth (negb (w =? 0)), s2) | None => None end)); [exact La|].
      intros v. destruct (v =? 0); [exact (Rt (Some 0))|].
      apply (St (aev N b) (fun w s2 => Some (truth (negb (w =? 0)), s2))); [exact Lb|]. intros w. exact (Rt (Some _)).
    + unfold dor. apply (St (aev N a) (fun v s1 => if v =? 0 then match aev N b s1 with Some (w, s2) => Some (truth (negb (w =? 0)), s2) | None => None end else Some (1, s1))); [exact La|].
      intros v. destruct (v =? 0); [|exact (Rt (Some 1))].
      apply (St (aev N b) (fun w s2 => Some (truth (negb (w =? 0)), s2))); [exact Lb|]. intros w. exact (Rt (Some _)).
    + unfold dop. apply (St (aev N a) (fun v s1 => match aev N b s1 with Some (w, s2) => match arith N op v w with Some x => Some (x, s2) | None => None end | None => None end)); [exact La|].
      intros v. apply (St (aev N b) (fun w s2 => match arith N op v w with Some x => Some (x, s2) | None => None end)); [exact Lb|]. intros w. apply Rt.
  - unfold dcond. apply (St (aev N c) (fun v s1 => if v =? 0 then aev N b s1 else aev N a s1)).
    + apply IHc. intros; apply V, in_or_app; auto.
    + intros v. destruct (v =? 0); [apply IHb|apply IHa]; intros; apply V, in_or_app; right; apply in_or_app; auto.
  - assert (Hn : A n) by (apply V; left; reflexivity).
    assert (Lt : locd (aev N t)) by (apply IH; intros; apply V; right; auto).
    assert (Sv : forall w, locd (fun s => Some (w, setv n w s))).
    { intros w g h v g1 X E. injection E as <- <-. exists (setv n w h). split; [reflexivity|]. split.
      - intros m Hm. unfold setv. destruct (list_eq_dec _ _ _); auto.
      - intros m. destruct (list_eq_dec Z.eq_dec m n) as [->|Q1]; [auto|]. right. apply setv_other, Q1. }
    unfold dasg. apply (St (aev N t) (fun v s1 => if op =? EQ then Some (v, setv n v s1) else match asg_op op with Some o => match arith N o (s1 n) v with Some w => Some (w, setv n w s1) | None => None end | None => None end)); [exact Lt|].
    intros v. destruct (op =? EQ); [apply Sv|]. destruct (asg_op op) as [o|]; [|intros g h v' g1 X E; discriminate].
    intros g h v' g1 X E. rewrite (X n Hn) in E. destruct (arith N o (h n) v) as [w|]; [|discriminate]. exact (Sv w g h v' g1 X E).
  - unfold dcomma. apply (St (aev N a) (fun _ s1 => aev N b s1)); [apply IHa; intros; apply V, in_or_app; auto|].
    intros _. apply IHb. intros; apply V, in_or_app; auto.
Qed.
(* words are numbers or allowed names *)
Definition digword (n : name) : Prop := match n with c :: _ => is_dig c = true | [] => True end.
Definition good (l : list Z) : Prop := forall n, In n (words [] l) -> digword n \/ A n.
Lemma exp_chs_inv l : forall g l' g', exp N (chs l) g l' g' -> l' = l /\ g' = g.
Proof.
  induction l as [|c l IH]; intros g l' g' E; cbn [chs map] in E; inversion E; subst; [auto|].
  match goal with X : exp N _ _ _ _ |- _ => destruct (IH _ _ _ X) as [-> ->] end. auto.
Qed.
Lemma ari_local l g h v g1 : good l -> eqon g h -> ari N (chs l) g v g1 -> exists h1, ari N (chs l) h v h1 /\ eqon g1 h1 /\ forall n, A n \/ h1 n = h n.
Proof.
  intros G X E. inversion E as [a s l0 s1 ts t w s2 E1 L Ag Ev]; subst. destruct (exp_chs_inv _ _ _ _ E1) as [-> ->].
  assert (V : forall n, In n (avars t) -> A n).
  { intros n Hn. pose proof (lexr_words _ _ L _ (AG_vars _ _ _ Ag _ Hn)) as W. destruct (G n W) as [D|D]; [|exact D]. exfalso.
    pose proof (AG_vars _ _ _ Ag _ Hn) as T. clear - L T D. revert T. induction L as [|r ts _ IH|w t r ts Hw Hr Ht _ IH|p op r ts Hp _ _ IH]; intros T; auto.
    - destruct T as [T|T]; [|auto]. subst t. inversion Ht as [? [Y _]| | | |]; subst. destruct n; [exact Y|]. cbn in D. congruence.
    - destruct T as [T|T]; [discriminate|auto]. }
  destruct (aev_loc t V g h v g1 X Ev) as (h1 & Eh & X1 & O1). exists h1. split; [|auto].
  econstructor; [apply exp_chs|exact L|exact Ag|exact Eh].
Qed.
End Local.
