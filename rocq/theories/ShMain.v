(** * Expressions compiled to shell arithmetic: the induction over expressions *)
From Coq Require Import ZArith List Lia Bool.
From Verif Require Import Base Numerals Output Ast Parse ShArith ShExpr ShCSem ShEqs ShFacts ShFacts2 ShSyn ShSem.
Import ListNotations.
Open Scope Z_scope.

Section Main.
Variable N : Z.
Hypothesis HN : 32 <= N.
Variables (vn mn zn : nat -> name) (moff zsz : nat -> Z).
Notation cev := (cev moff zsz). Notation clv := (clv moff zsz).
Notation hst := (hst moff zsz). Notation hlv := (hlv moff zsz). Notation had := (had moff zsz).
Notation hz := (hz moff zsz). Notation zlv := (zlv moff zsz). Notation zad := (zad moff zsz).
Notation rv := (comp_rvalue_go vn mn zn). Notation lv := (comp_lvalue vn mn zn). Notation la := (comp_lvalue_address vn mn zn).
Notation nm := (nm vn). Notation cst := (cst mn zn moff zsz). Notation agree := (agree vn). Notation off := (off vn).
Notation Sem := (Sem vn mn zn moff zsz). Notation SynE := (SynE N).
Hypothesis NK : names_ok vn mn zn moff zsz.

(** ** Arithmetic *)
Lemma chk_spec z v : chk z = Some v -> v = z /\ - 2 ^ 31 <= v < 2 ^ 31.
Proof.
  unfold chk, inint. destruct (Z.leb_spec (- 2 ^ 31) z), (Z.ltb_spec z (2 ^ 31)); cbn; intros E; inversion E; subst; auto.
Qed.
Lemma chk_wrap z v : chk z = Some v -> wrapN N z = v.
Proof. intros H. apply chk_spec in H as [-> H]. apply wrapN_int; auto. Qed.
Lemma carith_arith op a b v : carith op a b = Some v -> arith N op a b = Some v.
Proof.
  unfold carith, arith. intros H.
  destruct (op =? PLUS); [apply chk_wrap in H; congruence|].
  destruct (op =? MINUS); [apply chk_wrap in H; congruence|].
  destruct (op =? STAR); [apply chk_wrap in H; congruence|].
  destruct (op =? SLASHC); [destruct (b =? 0); [discriminate|apply chk_wrap in H; congruence]|].
  destruct (op =? PERCENT); [destruct (b =? 0); [discriminate|]; destruct (inint _); [auto|discriminate]|].
  destruct (op =? LSHIFT).
  { destruct (Z.leb_spec 0 a), (Z.leb_spec 0 b), (Z.ltb_spec b 32); try discriminate H. cbn [andb] in *.
    destruct (Z.ltb_spec b N); [|lia]. apply chk_wrap in H. congruence. }
  destruct (op =? RSHIFT).
  { destruct (Z.leb_spec 0 b), (Z.ltb_spec b 32); try discriminate H. cbn [andb] in *.
    destruct (Z.ltb_spec b N); [|lia]. auto. }
  exact H.
Qed.
Lemma cunary_unary op v w : cunary op v = Some w -> unary N op v = Some w.
Proof.
  unfold cunary, unary. intros H. destruct (Z.eqb_spec op PLUS) as [->|]; [discriminate|].
  destruct (op =? MINUS); [apply chk_wrap in H; congruence|]. exact H.
Qed.

(** ** Texts and operands *)
Definition Txt (c : list item) (lev : nat) (m : Prop) (g0 g1 : vars) (f : den) : Prop :=
  exists ch, exp N c g0 ch g1 /\ SynE lev ch m f.
Definition Opd (c : list item) (lev : nat) (m : Prop) (R W V : list loc) (s s' : store) (v : Z) (g0 : vars) : Prop :=
  exists g1 f, Txt c lev m g0 g1 f /\ off V g0 g1 /\ incl V W /\ Sem R W V s s' v g1 f.
Definition Zpd (c : list item) (lev : nat) (m : Prop) (g0 : vars) : Prop :=
  exists g1 f, Txt c lev m g0 g1 f /\ off [] g0 g1.

Lemma txt_m c lev (m m' : Prop) g0 g1 f : (m -> m') -> Txt c lev m g0 g1 f -> Txt c lev m' g0 g1 f.
Proof. intros M (ch & X & S). exists ch. split; auto. eapply syn_m; eauto. Qed.
Lemma txt_le c lev lev' m g0 g1 f : (lev <= lev')%nat -> (lev' <= 14)%nat -> Txt c lev m g0 g1 f -> Txt c lev' m g0 g1 f.
Proof. intros H H' (ch & X & S). exists ch. split; auto. eapply syn_le; eauto. Qed.
Lemma txt_bin op ca la_ ma cb lb (mb : Prop) g0 g1 g2 fa fb : existsb (Z.eqb op) all_binops = true ->
  (la_ <= natl op)%nat -> (lb <= rlim op)%nat -> Txt ca la_ ma g0 g1 fa -> Txt cb lb mb g1 g2 fb ->
  Txt (ca ++ op_to_str op ++ cb) (natl op) ma g0 g2 (dbin N op fa fb).
Proof.
  intros Hop Ha Hb (ch & Xa & Sa) (dh & Xb & Sb). exists (ch ++ ([32] ++ op_chars op ++ [32]) ++ dh). split.
  - eapply exp_app; [exact Xa|]. eapply exp_app; [apply exp_chs|exact Xb].
  - eapply syn_bin; eauto.
Qed.
Lemma txt_comma ca la_ ma cb lb (mb : Prop) g0 g1 g2 fa fb :
  (la_ <= 13)%nat -> (lb <= 14)%nat -> Txt ca la_ ma g0 g1 fa -> Txt cb lb mb g1 g2 fb ->
  Txt (ca ++ op_to_str COMMA ++ cb) 14 ma g0 g2 (dcomma fa fb).
Proof.
  intros Ha Hb (ch & Xa & Sa) (dh & Xb & Sb). exists (ch ++ ([32] ++ op_chars COMMA ++ [32]) ++ dh). split.
  - eapply exp_app; [exact Xa|]. eapply exp_app; [apply exp_chs|exact Xb].
  - eapply syn_comma; eauto.
Qed.
Lemma txt_cond cc lc mc ca la_ (ma : Prop) cb lb (mb : Prop) g0 g1 g2 g3 fc fa fb :
  (lc <= 11)%nat -> (la_ <= 14)%nat -> (lb <= 12)%nat -> Txt cc lc mc g0 g1 fc -> Txt ca la_ ma g1 g2 fa -> Txt cb lb mb g2 g3 fb ->
  Txt (cc ++ op_to_str QUEST ++ ca ++ chs [58; 32] ++ cb) 12 mc g0 g3 (dcond fc fa fb).
Proof.
  intros Hc Ha Hb (ch & Xc & Sc) (dh & Xa & Sa) (eh & Xb & Sb).
  exists (ch ++ ([32] ++ op_chars QUEST ++ [32]) ++ dh ++ [58; 32] ++ eh). split.
  - eapply exp_app; [exact Xc|]. eapply exp_app; [apply exp_chs|]. eapply exp_app; [exact Xa|].
    eapply exp_app; [apply exp_chs|exact Xb].
  - eapply syn_cond; eauto.
Qed.
Lemma txt_asg op cl n cb lb (mb : Prop) g0 g1 g2 fb : In op assign_ops -> is_ident n -> (lb <= 13)%nat ->
  exp N cl g0 n g1 -> Txt cb lb mb g1 g2 fb -> Txt (cl ++ op_to_str op ++ cb) 13 False g0 g2 (dasg N op n fb).
Proof.
  intros Hop I Hb Xa (dh & Xb & Sb). exists (n ++ ([32] ++ op_chars op ++ [32]) ++ dh). split.
  - eapply exp_app; [exact Xa|]. eapply exp_app; [apply exp_chs|exact Xb].
  - eapply syn_asg; eauto.
Qed.
Lemma txt_un op c (m : Prop) g0 g1 f : In op [MINUS; TILDE; EXCL] -> (op = MINUS -> ~ m) -> Txt c 0 m g0 g1 f ->
  Txt (chs [op] ++ c) 0 (op = MINUS) g0 g1 (dun N op f).
Proof.
  intros H M (ch & X & S). exists ([op] ++ ch). split; [|eapply syn_un; eauto].
  eapply exp_app; [apply exp_chs|exact X].
Qed.
Lemma txt_wrap c l (m mm : Prop) o i g0 g1 f : (l <= 14)%nat -> l <> 0%nat -> Txt c l m g0 g1 f ->
  Txt (wrap_if_needed true true c o i) (if wrapb o i then 0%nat else l) ((if wrapb o i then 0%nat else l) = 0%nat -> mm) g0 g1 f.
Proof.
  intros Hl Hn (ch & X & S). unfold wrap_if_needed. fold (wrapb o i).
  change (true && negb (o =? 0) && negb (o =? EQ) && (negb (is_associative_operator i) || negb (i =? o)))
    with (wrapb o i).
  destruct (wrapb o i).
  - exists ([40] ++ ch ++ [41]). split.
    + eapply exp_app; [apply exp_chs|]. eapply exp_app; [exact X|apply exp_chs].
    + eapply syn_m; [|eapply syn_par; eauto]. tauto.
  - exists ch. split; auto. eapply syn_m; [|exact S]. intros _ E. lia.
Qed.
Lemma txt_num l v g : forallb is_word l = true -> word_tok l (TNum v) -> Txt (chs l) 0 False g g (fun s => Some (v, s)).
Proof. intros W T. exists l. split; [apply exp_chs|apply syn_num; auto]. Qed.
Lemma txt_name c n g0 g1 : is_ident n -> exp N c g0 n g1 -> Txt c 0 False g0 g1 (fun s => Some (s n, s)).
Proof. intros I X. exists n. split; [exact X|apply syn_name; auto]. Qed.

Lemma sem_ret s v g1 (f : den) : (forall g, cst g -> f g = Some (v, g)) -> Sem [] [] [] s s v g1 f.
Proof. intros H g2 C _ _. exists g2. split; [auto|]. split; [intros l []|apply off_refl]. Qed.
Lemma opd_ret c lev m s v g (f : den) : Txt c lev m g g f -> (forall g, cst g -> f g = Some (v, g)) ->
  Opd c lev m [] [] [] s s v g.
Proof. intros T H. exists g, f. split; [exact T|]. split; [apply off_refl|]. split; [apply incl_refl|apply sem_ret; auto]. Qed.

Lemma same_r e s v s' R W : cev e s = Some (v, s', R, W) -> same W s s'.
Proof. apply (proj1 (cev_clv_ok moff zsz e)). Qed.
Lemma same_l e s l s' R W : clv e s = Some (l, s', R, W) -> same W s s'.
Proof. apply (proj2 (cev_clv_ok moff zsz e)). Qed.

Lemma hseq_inv Ra Wa ha hb H V : hseq Ra Wa ha hb = Some (H, V) ->
  exists Ha Va Hb Vb, ha = Some (Ha, Va) /\ hb = Some (Hb, Vb) /\ H = Ha ++ Hb /\ V = Va ++ Vb /\
    disj Hb Wa = true /\ disj Vb (Ra ++ Wa) = true.
Proof.
  unfold hseq. destruct ha as [[Ha Va]|]; [|discriminate]. destruct hb as [[Hb Vb]|]; [|discriminate].
  destruct (disj Hb Wa) eqn:D1; [|discriminate]. destruct (disj Vb (Ra ++ Wa)) eqn:D2; [|discriminate].
  intros E. inversion E; subst. exists Ha, Va, Hb, Vb. auto 8.
Qed.
(* what b sees early is what a left alone *)
Lemma agree_after Wa Va Hb g0 g1 s sa : same Wa s sa -> incl Va Wa -> off Va g0 g1 -> disj Hb Wa = true ->
  agree Hb g0 s -> agree Hb g1 sa.
Proof.
  intros S I O D A l Hl. assert (~ In l Wa) by (intros X; eapply disj_spec; eauto).
  rewrite (off_nm _ _ _ _ _ NK _ _ _ _ O) by auto. rewrite A by auto. symmetry. apply S; auto.
Qed.

(** ** Two operands *)
Section Two.
Variables (ca cb : list item) (la_ lb : nat) (ma mb : Prop) (Ra Wa Va Ha Rb Wb Vb Hb : list loc)
  (s sa sb : store) (va vb : Z) (g0 : vars).
Hypothesis Ca : Opd ca la_ ma Ra Wa Va s sa va g0.
Hypothesis Cb : forall g1, cst g1 -> agree Hb g1 sa -> Opd cb lb mb Rb Wb Vb sa sb vb g1.
Hypothesis Sa : same Wa s sa.
Hypothesis Sb : same Wb sa sb.
Hypothesis D1 : disj Hb Wa = true.
Hypothesis D2 : disj Vb (Ra ++ Wa) = true.
Hypothesis C0 : cst g0.
Hypothesis A0 : agree Hb g0 s.
Lemma two : exists g1 g2 fa fb, Txt ca la_ ma g0 g1 fa /\ Txt cb lb mb g1 g2 fb /\ off (Va ++ Vb) g0 g2 /\
  incl (Va ++ Vb) (Wa ++ Wb) /\
  forall g, cst g -> (forall l, In l (Ra ++ Rb) -> ~ In l (Va ++ Vb) -> g (nm l) = s l) ->
    (forall l, In l (Va ++ Vb) -> g (nm l) = g2 (nm l)) ->
    exists ga gb, fa g = Some (va, ga) /\ fb ga = Some (vb, gb) /\ agree (Wa ++ Wb) gb sb /\ off (Wa ++ Wb) g gb.
Proof.
  destruct Ca as (g1 & fa & Ta & Oa & Ia & Ma).
  assert (C1 : cst g1) by (eapply off_cst; eauto).
  destruct (Cb g1 C1) as (g2 & fb & Tb & Ob & Ib & Mb); [eapply agree_after; eauto|].
  exists g1, g2, fa, fb. split; [auto|]. split; [auto|]. split; [eapply off_app; eauto|].
  split; [apply incl_app; [apply incl_appl; auto|apply incl_appr; auto]|].
  intros g C HR HV.
  destruct (pair_sem vn mn zn moff zsz NK s sa sb Ra Wa Va Rb Wb Vb g0 g1 g2 va vb fa fb) with (g2 := g) as (ga & gb & Ea & _ & _ & Eb & A & O);
    auto.
  - intros l X Y. eapply disj_spec; [exact D2|exact X|exact Y].
  - exists ga, gb. auto.
Qed.
End Two.

Lemma opd_bin op ca la_ ma cb lb mb Ra Wa Va Hb Rb Wb Vb s sa sb va vb v g0 :
  Opd ca la_ ma Ra Wa Va s sa va g0 ->
  (forall g1, cst g1 -> agree Hb g1 sa -> Opd cb lb mb Rb Wb Vb sa sb vb g1) ->
  same Wa s sa -> same Wb sa sb -> disj Hb Wa = true -> disj Vb (Ra ++ Wa) = true -> cst g0 -> agree Hb g0 s ->
  existsb (Z.eqb op) all_binops = true -> (la_ <= natl op)%nat -> (lb <= rlim op)%nat ->
  op <> AMP_AMP -> op <> BAR_BAR -> carith op va vb = Some v ->
  Opd (ca ++ op_to_str op ++ cb) (natl op) ma (Ra ++ Rb) (Wa ++ Wb) (Va ++ Vb) s sb v g0.
Proof.
  intros Ca Cb Sa Sb D1 D2 C0 A0 Hop La Lb N1 N2 Hv.
  destruct (two ca cb la_ lb ma mb Ra Wa Va Rb Wb Vb Hb s sa sb va vb g0) as (g1 & g2 & fa & fb & Ta & Tb & O & I & M); auto.
  exists g2, (dbin N op fa fb). split; [eapply txt_bin; eauto|]. split; [auto|]. split; [auto|].
  intros g C HR HV. destruct (M g C HR HV) as (ga & gb & Ea & Eb & A & Og). exists gb. split; [|auto].
  unfold dbin. destruct (Z.eqb_spec op AMP_AMP); [tauto|]. destruct (Z.eqb_spec op BAR_BAR); [tauto|].
  unfold dop. rewrite Ea, Eb, (carith_arith _ _ _ _ Hv). reflexivity.
Qed.

(* a text run in full *)
Lemma opd_run c lev m R W V s s' v g0 : Opd c lev m R W V s s' v g0 -> (lev <= 14)%nat -> cst g0 -> agree R g0 s ->
  exists g3, ari N c g0 v g3 /\ agree W g3 s' /\ off W g0 g3.
Proof.
  intros (g1 & f & (ch & X & S) & O & I & M) Hl C A.
  destruct (full_sem vn mn zn moff zsz NK R W V s s' v g0 g1 f) as (g3 & E & A3 & O3); auto.
  exists g3. split; [|auto]. eapply syn_ari; eauto.
Qed.
Lemma ari_cell c g0 v g3 : ari N c g0 v g3 -> exp N (chs [95] ++ [Ar c]) g0 (95 :: decimal v) g3.
Proof.
  intros H. cbn. apply e_ch. rewrite <- (app_nil_r (decimal v)). eapply e_ar; [exact H|apply e_nil].
Qed.
Lemma ari_base c g0 v g3 : ari N c g0 v g3 -> exp N [Ar c] g0 (decimal v) g3.
Proof. intros H. rewrite <- (app_nil_r (decimal v)). eapply e_ar; [exact H|apply e_nil]. Qed.

(** ** Statements *)
Definition PhA (e : xe) : Prop := forall o s v s' R W H V g0,
  okx e = true -> cev e s = Some (v, s', R, W) -> hst e s = Some (H, V) -> cst g0 -> agree H g0 s ->
  Opd (rv e true o) (plev e o) (plev e o = 0%nat -> minus e = true) R W V s s' v g0.
Definition PhB (e : xe) : Prop := forall o s v s' R W H V g0,
  okx e = true -> cev e s = Some (v, s', R, W) -> hst e s = Some (H, V) -> cst g0 -> agree (R ++ H) g0 s ->
  exists g3, exp N (rv e false o) g0 (decimal v) g3 /\ agree W g3 s' /\ off W g0 g3.
Definition PhL (e : xe) : Prop := forall s l s1 R W H V g0,
  okl e = true -> clv e s = Some (l, s1, R, W) -> hlv e s = Some (H, V) -> cst g0 -> agree H g0 s ->
  exists g1, exp N (lv e) g0 (nm l) g1 /\ is_ident (nm l) /\ V = W /\ agree W g1 s1 /\ off W g0 g1.
Definition PhD (e : xe) : Prop := forall s a s1 R W H V g0,
  oka e = true -> clv e s = Some (LC a, s1, R, W) -> had e s = Some (H, V) -> cst g0 -> agree H g0 s ->
  Opd (la e) 3 True R W V s s1 a g0.
Definition PhZ (e : xe) : Prop := forall o s H g0,
  okx e = true -> hz e s = Some H -> cst g0 -> agree H g0 s ->
  Zpd (rv e true o) (plev e o) (plev e o = 0%nat -> minus e = true) g0.
Definition PhZL (e : xe) : Prop := forall s H g0,
  okl e = true -> zlv e s = Some H -> cst g0 -> agree H g0 s ->
  exists g1 n, exp N (lv e) g0 n g1 /\ is_ident n /\ off [] g0 g1.
Definition PhZD (e : xe) : Prop := forall s H g0,
  oka e = true -> zad e s = Some H -> cst g0 -> agree H g0 s -> Zpd (la e) 3 True g0.
Definition Ph (e : xe) : Prop := PhA e /\ PhB e /\ PhL e /\ PhD e /\ PhZ e /\ PhZL e /\ PhZD e.

Lemma B_of_A e : (okx e = true -> (plev e 0 <= 14)%nat) -> (forall o, rv e false o = [Ar (rv e true 0)]) -> PhA e -> PhB e.
Proof.
  intros Hl Hr HA o s v s' R W H V g0 Ok Ec Eh C A. apply agree_app in A as [AR AH].
  destruct (opd_run _ _ _ _ _ _ _ _ _ _ (HA 0 s v s' R W H V g0 Ok Ec Eh C AH) (Hl Ok) C AR) as (g3 & X & A3 & O3).
  exists g3. rewrite Hr. split; [apply ari_base; auto|auto].
Qed.

(* the address of an indexed word, a + b *)
Lemma adr_pair a b o s v s' R W va sa Ra Wa H V g0 :
  PhA a -> PhA b -> okx a = true -> okx b = true -> (plev a o <= 3)%nat -> (plev b o <= 3)%nat ->
  cpair (cev a s) (cev b) (carith PLUS) = Some (v, s', R, W) -> cev a s = Some (va, sa, Ra, Wa) ->
  hseq Ra Wa (hst a s) (hst b sa) = Some (H, V) -> cst g0 -> agree H g0 s ->
  Opd (rv a true o ++ chs [32; 43; 32] ++ rv b true o) 3 True R W V s s' v g0.
Proof.
  intros HA HB Oa Ob La Lb Ec Ea Eh C A.
  apply hseq_inv in Eh as (Ha & Va & Hb & Vb & Eha & Ehb & -> & -> & D1 & D2).
  apply agree_app in A as [AA AB].
  unfold cpair in Ec. rewrite Ea in Ec. destruct (cev b sa) as [[[[vb sb] Rb] Wb]|] eqn:Eb; [|discriminate].
  destruct (race _ _ _ _); [discriminate|]. destruct (carith PLUS va vb) as [v'|] eqn:Ev; [|discriminate].
  inversion Ec; subst. clear Ec.
  change (chs [32; 43; 32]) with (op_to_str PLUS).
  assert (OP : Opd (rv a true o ++ op_to_str PLUS ++ rv b true o) (natl PLUS) (plev a o = 0%nat -> minus a = true)
     (Ra ++ Rb) (Wa ++ Wb) (Va ++ Vb) s s' v g0).
  { eapply (opd_bin PLUS); eauto using same_r; try discriminate; try reflexivity. }
  destruct OP as (g1 & f & T & R1). exists g1, f. split; [|exact R1]. eapply txt_m; [|exact T]. auto.
Qed.
(* a member: a + offset *)
Lemma adr_mem a k o s v s' R W w H V g0 :
  PhA a -> okx a = true -> (plev a o <= 3)%nat ->
  cev a s = Some (w, s', R, W) -> carith PLUS w (moff k) = Some v ->
  hst a s = Some (H, V) -> cst g0 -> agree H g0 s ->
  Opd (rv a true o ++ chs [32; 43; 32] ++ chs (mn k)) 3 True R W V s s' v g0.
Proof.
  intros HA Oa La Ea Ev Eh C A. change (chs [32; 43; 32]) with (op_to_str PLUS).
  rewrite <- (app_nil_r R), <- (app_nil_r W), <- (app_nil_r V).
  assert (OP : Opd (rv a true o ++ op_to_str PLUS ++ chs (mn k)) (natl PLUS) (plev a o = 0%nat -> minus a = true)
     (R ++ []) (W ++ []) (V ++ []) s s' v g0).
  { eapply (opd_bin PLUS) with (Hb := []) (mb := False) (lb := 0%nat) (sa := s'); eauto using same_r, same_refl;
      try discriminate; try reflexivity; try lia.
    - intros g1 C1 _. eapply opd_ret; [apply txt_name; [apply (nk_mi _ _ _ _ _ NK)|apply exp_chs]|].
      intros g Cg. cbn beta. rewrite (Cg _ _ (cn_mem mn zn moff zsz k)). reflexivity.
    - intros l []. }
  destruct OP as (g1 & f & T & R1). exists g1, f. split; [|exact R1]. eapply txt_m; [|exact T]. auto.
Qed.
(* an operand that is a memory word whose address text has been run *)
Lemma opd_cell c m s a s1 R W g0 g3 : exp N c g0 (nm (LC a)) g3 -> 0 <= a -> ~ In (LC a) W -> agree W g3 s1 -> off W g0 g3 ->
  same W s s1 -> Opd c 0 m (LC a :: R) W W s s1 (s1 (LC a)) g0.
Proof.
  intros X Ha Hw A O S. exists g3, (fun s => Some (s (nm (LC a)), s)). split.
  - eapply txt_m; [|apply txt_name; [apply nm_cell_ident; auto|exact X]]. tauto.
  - split; [auto|]. split; [apply incl_refl|]. intros g2 C HR HV. exists g2.
    split; [|split; [|apply off_refl]].
    + rewrite HR; [|left; reflexivity|auto]. rewrite S by auto. reflexivity.
    + intros l Hl. rewrite HV by auto. apply A; auto.
Qed.
End Main.
