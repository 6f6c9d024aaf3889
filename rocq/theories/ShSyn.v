(** * The texts of ShExpr: their tokens, their level in the grammar and their meaning *)
From Coq Require Import ZArith List Lia Bool.
From Verif Require Import Base Numerals Output Ast Parse ShArith ShExpr ShCSem ShFacts ShFacts2.
Import ListNotations.
Open Scope Z_scope.

Section Syn.
Variable N : Z.
Hypothesis HN : 32 <= N.

(* text [ch] has meaning [f] at level [lev]; it starts with a minus sign only if [m] *)
Definition SynE (lev : nat) (ch : list Z) (m : Prop) (f : den) : Prop :=
  exists ts t, Lx ch ts /\ AGx lev ts t /\ deq (aev N t) f /\ exists c r, ch = c :: r /\ c <> 61 /\ (c = 45 -> m).

Lemma syn_le l l' ch m f : (l <= l')%nat -> (l' <= 14)%nat -> SynE l ch m f -> SynE l' ch m f.
Proof. intros H1 H2 (ts & t & L & A & R). exists ts, t. split; [auto|]. split; [|exact R]. eapply AGx_le; eauto. Qed.
Lemma syn_m l ch (m m' : Prop) f : (m -> m') -> SynE l ch m f -> SynE l ch m' f.
Proof. intros M (ts & t & L & A & D & c & r & E & X & Y). exists ts, t. repeat split; auto. exists c, r. auto. Qed.
Lemma syn_deq l ch m f g : deq f g -> SynE l ch m f -> SynE l ch m g.
Proof. intros D (ts & t & L & A & D' & R). exists ts, t. repeat split; auto. intros s. rewrite D'. apply D. Qed.
Lemma syn_ari l ch m f a s s1 : exp N a s ch s1 -> SynE l ch m f -> (l <= 14)%nat ->
  forall v s2, f s1 = Some (v, s2) -> ari N a s v s2.
Proof.
  intros X (ts & t & L & A & D & _) Hl v s2 E. econstructor; [exact X|apply Lx_lexr; exact L| |].
  - eapply AGx_AG; eauto.
  - rewrite D. exact E.
Qed.
Lemma word_head w t : forallb is_word w = true -> word_tok w t -> exists c r, w = c :: r /\ c <> 61 /\ (c = 45 -> False).
Proof.
  intros W T. destruct w as [|c r]; [inversion T; subst; try discriminate; destruct H as [[] _]|].
  exists c, r. cbn in W. apply andb_true_iff in W as [W _]. split; [reflexivity|].
  split; intros ->; discriminate.
Qed.
Lemma syn_num w v : forallb is_word w = true -> word_tok w (TNum v) -> SynE 0 w False (fun s => Some (v, s)).
Proof.
  intros W T. exists [TNum v], (ANum v). split; [apply Lx_word; auto|]. split; [constructor|].
  split; [intros s; reflexivity|]. eapply word_head; eauto.
Qed.
Lemma syn_name n : is_ident n -> SynE 0 n False (fun s => Some (s n, s)).
Proof.
  intros I. exists [TName n], (AVar n). split; [apply Lx_name; auto|]. split; [constructor|].
  split; [intros s; reflexivity|]. eapply word_head; [apply I|constructor; exact I].
Qed.
Lemma syn_par l ch m f : (l <= 14)%nat -> SynE l ch m f -> SynE 0 ([40] ++ ch ++ [41]) False f.
Proof.
  intros Hl (ts & t & L & A & D & _). exists (TOp LPAR :: ts ++ [TOp RPAR]), (APar t).
  split; [apply Lx_par; auto|]. split; [constructor; eapply AGx_AG; eauto|]. split; [exact D|].
  exists 40, (ch ++ [41]). split; [reflexivity|]. split; [lia|lia].
Qed.
Lemma syn_un op ch (m : Prop) f : In op [MINUS; TILDE; EXCL] -> (op = MINUS -> ~ m) -> SynE 0 ch m f ->
  SynE 0 ([op] ++ ch) (op = MINUS) (dun N op f).
Proof.
  intros H M (ts & t & L & A & D & c & r & -> & X & Y). exists (TOp op :: ts), (AUn op t).
  split.
  - apply Lx_un; auto. cbn in H. destruct H as [<- | [<- | [<- | []]]]; auto. left. split; [reflexivity|].
    intros ->. apply M; auto.
  - split; [constructor; auto; cbn in *; tauto|]. split.
    + intros s. cbn [aev]. unfold dun. rewrite D. reflexivity.
    + exists op, (c :: r). split; [reflexivity|]. cbn in H. destruct H as [<- | [<- | [<- | []]]]; unfold MINUS, TILDE, EXCL; split; auto; lia.
Qed.

(** ** Binary operators *)
Fixpoint blev_from (k : nat) (op : Z) : nat :=
  match k with O => O | S j => if existsb (Z.eqb op) (binops k) then k else blev_from j op end.
Definition blev (op : Z) : nat := blev_from 10 op.
Definition natl (op : Z) : nat := if op =? STAR then 1%nat else S (blev op).
Definition rassoc (op : Z) : bool := existsb (Z.eqb op) [PLUS; AMP; CARET; BAR; AMP_AMP; BAR_BAR].
Definition rlim (op : Z) : nat :=
  if op =? STAR then 1%nat else if rassoc op then natl op else if existsb (Z.eqb op) (binops 1) then 0%nat else blev op.

Lemma binop_cases op : existsb (Z.eqb op) all_binops = true ->
  In op [STAR; SLASHC; PERCENT; PLUS; MINUS; LSHIFT; RSHIFT; LT; GT; LT_EQ; GT_EQ; EQ_EQ; EXCL_EQ; AMP; CARET; BAR; AMP_AMP; BAR_BAR].
Proof. intros H. apply existsb_exists in H as (x & I & E). apply Z.eqb_eq in E. subst x. exact I. Qed.
Lemma op_in_table op : existsb (Z.eqb op) all_binops = true -> In (op_chars op, op) op_table.
Proof.
  intros H. apply binop_cases in H. cbn in H.
  repeat (destruct H as [<- | H]; [vm_compute; tauto|]). contradiction.
Qed.
Lemma asg_in_table op : In op assign_ops -> In (op_chars op, op) op_table.
Proof.
  intros H. cbn in H. repeat (destruct H as [<- | H]; [vm_compute; tauto|]). contradiction.
Qed.

Lemma syn_bin op la ca ma fa lb cb (mb : Prop) fb : existsb (Z.eqb op) all_binops = true ->
  (la <= natl op)%nat -> (lb <= rlim op)%nat -> SynE la ca ma fa -> SynE lb cb mb fb ->
  SynE (natl op) (ca ++ ([32] ++ op_chars op ++ [32]) ++ cb) ma (dbin N op fa fb).
Proof.
  intros Hop Hla Hlb (ta & a & La & Aa & Da & c & r & -> & Xa & Ya) (tb & b & Lb & Ab & Db & _).
  assert (Lt : Lx ((c :: r) ++ ([32] ++ op_chars op ++ [32]) ++ cb) (ta ++ TOp op :: tb)).
  { apply Lx_bin; auto using op_in_table. }
  assert (Hd : exists c' r', (c :: r) ++ ([32] ++ op_chars op ++ [32]) ++ cb = c' :: r' /\ c' <> 61 /\ (c' = 45 -> ma)).
  { exists c, (r ++ ([32] ++ op_chars op ++ [32]) ++ cb). auto. }
  assert (Ex : exists t, AGx (natl op) (ta ++ TOp op :: tb) t /\ deq (aev N t) (dbin N op (aev N a) (aev N b))).
  { assert (B14 : (natl op <= 14)%nat /\ (rlim op <= 14)%nat).
    { apply binop_cases in Hop. cbn in Hop.
      repeat (destruct Hop as [<- | Hop]; [vm_compute; lia|]). contradiction. }
    eapply AGx_le in Aa; [|exact Hla|lia]. eapply AGx_le in Ab; [|exact Hlb|lia].
    clear La Lb Lt Hd Hla Hlb B14 Da Db.
    assert (Easy : forall k, (k < 10)%nat -> In op (binops (S k)) -> natl op = S (S k) -> AG (S k) ta a -> AG k tb b ->
       exists t, AGx (natl op) (ta ++ TOp op :: tb) t /\ deq (aev N t) (dbin N op (aev N a) (aev N b))).
    { intros k Hk I E A1 A2. exists (ABin op a b). split; [|intros s; reflexivity]. rewrite E. cbn [AGx]. apply ag_bin; auto. }
    assert (Re : forall k, (k < 10)%nat -> In op (binops (S k)) -> natl op = S (S k) ->
       (op = PLUS /\ k = 1%nat) \/ (binops (S k) = [op] /\ In op [AMP; CARET; BAR; AMP_AMP; BAR_BAR]) ->
       AG (S k) ta a -> AG (S k) tb b ->
       exists t, AGx (natl op) (ta ++ TOp op :: tb) t /\ deq (aev N t) (dbin N op (aev N a) (aev N b))).
    { intros k Hk I E Ho A1 A2. rewrite E. cbn [AGx]. eapply (reassoc N HN k op Hk Ho I (length tb)); auto. }
    apply binop_cases in Hop. cbn in Hop.
    destruct Hop as [<- | Hop]. { apply (mchain_reassoc N HN); auto. }
    destruct Hop as [<- | Hop]. { apply (Easy 0%nat); [lia | cbn; tauto | reflexivity | exact Aa | exact Ab]. }
    destruct Hop as [<- | Hop]. { apply (Easy 0%nat); [lia | cbn; tauto | reflexivity | exact Aa | exact Ab]. }
    destruct Hop as [<- | Hop]. { apply (Re 1%nat); [lia | cbn; tauto | reflexivity | left; split; reflexivity | exact Aa | exact Ab]. }
    destruct Hop as [<- | Hop]. { apply (Easy 1%nat); [lia | cbn; tauto | reflexivity | exact Aa | exact Ab]. }
    destruct Hop as [<- | Hop]. { apply (Easy 2%nat); [lia | cbn; tauto | reflexivity | exact Aa | exact Ab]. }
    destruct Hop as [<- | Hop]. { apply (Easy 2%nat); [lia | cbn; tauto | reflexivity | exact Aa | exact Ab]. }
    destruct Hop as [<- | Hop]. { apply (Easy 3%nat); [lia | cbn; tauto | reflexivity | exact Aa | exact Ab]. }
    destruct Hop as [<- | Hop]. { apply (Easy 3%nat); [lia | cbn; tauto | reflexivity | exact Aa | exact Ab]. }
    destruct Hop as [<- | Hop]. { apply (Easy 3%nat); [lia | cbn; tauto | reflexivity | exact Aa | exact Ab]. }
    destruct Hop as [<- | Hop]. { apply (Easy 3%nat); [lia | cbn; tauto | reflexivity | exact Aa | exact Ab]. }
    destruct Hop as [<- | Hop]. { apply (Easy 4%nat); [lia | cbn; tauto | reflexivity | exact Aa | exact Ab]. }
    destruct Hop as [<- | Hop]. { apply (Easy 4%nat); [lia | cbn; tauto | reflexivity | exact Aa | exact Ab]. }
    destruct Hop as [<- | Hop]. { apply (Re 5%nat); [lia | cbn; tauto | reflexivity | right; split; [reflexivity | cbn; tauto] | exact Aa | exact Ab]. }
    destruct Hop as [<- | Hop]. { apply (Re 6%nat); [lia | cbn; tauto | reflexivity | right; split; [reflexivity | cbn; tauto] | exact Aa | exact Ab]. }
    destruct Hop as [<- | Hop]. { apply (Re 7%nat); [lia | cbn; tauto | reflexivity | right; split; [reflexivity | cbn; tauto] | exact Aa | exact Ab]. }
    destruct Hop as [<- | Hop]. { apply (Re 8%nat); [lia | cbn; tauto | reflexivity | right; split; [reflexivity | cbn; tauto] | exact Aa | exact Ab]. }
    destruct Hop as [<- | Hop]. { apply (Re 9%nat); [lia | cbn; tauto | reflexivity | right; split; [reflexivity | cbn; tauto] | exact Aa | exact Ab]. }
    contradiction. }
  destruct Ex as (t & At & Dt). exists (ta ++ TOp op :: tb), t. split; [exact Lt|]. split; [exact At|].
  split; [|exact Hd]. intros s. rewrite Dt. apply dbin_deq; auto.
Qed.

Lemma syn_asg op n lb cb (mb : Prop) fb : In op assign_ops -> is_ident n -> (lb <= 13)%nat -> SynE lb cb mb fb ->
  SynE 13 (n ++ ([32] ++ op_chars op ++ [32]) ++ cb) False (dasg N op n fb).
Proof.
  intros Hop I Hl (tb & b & Lb & Ab & Db & _).
  exists ([TName n] ++ TOp op :: tb), (AAsg op n b). split; [apply Lx_bin; auto using asg_in_table, Lx_name|].
  split; [cbn [AGx]; apply ag_asg; auto; apply (AGx_le lb 13); auto; lia|].
  split; [intros s; cbn [aev]; unfold dasg; rewrite Db; reflexivity|].
  destruct (word_head n (TName n)) as (c & r & -> & X & Y); [apply I|constructor; auto|].
  exists c, (r ++ ([32] ++ op_chars op ++ [32]) ++ cb). auto.
Qed.
Lemma syn_comma la ca ma fa lb cb (mb : Prop) fb : (la <= 13)%nat -> (lb <= 14)%nat -> SynE la ca ma fa -> SynE lb cb mb fb ->
  SynE 14 (ca ++ ([32] ++ op_chars COMMA ++ [32]) ++ cb) ma (dcomma fa fb).
Proof.
  intros Hla Hlb (ta & a & La & Aa & Da & c & r & -> & Xa & Ya) (tb & b & Lb & Ab & Db & _).
  exists (ta ++ TOp COMMA :: tb), (AComma a b). split.
  - apply Lx_bin; auto. vm_compute; tauto.
  - split; [cbn [AGx]; apply ag_comma; [apply (AGx_le la 13)|apply (AGx_le lb 14)]; auto; lia|].
    split; [intros s; cbn [aev]; unfold dcomma; rewrite Da; destruct (fa s) as [[v s1]|]; [apply Db|reflexivity]|].
    exists c, (r ++ ([32] ++ op_chars COMMA ++ [32]) ++ cb). auto.
Qed.
Lemma syn_cond lc cc mc fc la ca (ma : Prop) fa lb cb (mb : Prop) fb :
  (lc <= 11)%nat -> (la <= 14)%nat -> (lb <= 12)%nat -> SynE lc cc mc fc -> SynE la ca ma fa -> SynE lb cb mb fb ->
  SynE 12 (cc ++ ([32] ++ op_chars QUEST ++ [32]) ++ ca ++ [58; 32] ++ cb) mc (dcond fc fa fb).
Proof.
  intros Hlc Hla Hlb (tc & c & Lc & Ac & Dc & c0 & r & -> & Xc & Yc) (ta & a & La & Aa & Da & _) (tb & b & Lb & Ab & Db & _).
  exists (tc ++ TOp QUEST :: ta ++ TOp COLON :: tb), (ACond c a b). split.
  - apply Lx_bin; [vm_compute; tauto|auto|]. apply Lx_colon; auto.
  - split; [cbn [AGx]; apply ag_cond; [apply (AGx_le lc 11)|apply (AGx_le la 14)|apply (AGx_le lb 12)]; auto; lia|].
    split.
    + intros s; cbn [aev]; unfold dcond; rewrite Dc; destruct (fc s) as [[v s1]|]; [|reflexivity].
      destruct (v =? 0); auto.
    + eexists c0, _. split; [reflexivity|]. auto.
Qed.

(** ** Levels of the emitted texts *)
Definition wrapb (o i : Z) : bool :=
  negb (o =? 0) && negb (o =? EQ) && (negb (is_associative_operator i) || negb (i =? o)).
Fixpoint plev (e : xe) (o : Z) : nat :=
  match e with
  | XPar e | XPlus e => plev e o
  | XCast e => plev e CAST
  | XPre inc _ => if wrapb o (if inc then PLUS_PLUS_PRE else MINUS_MINUS_PRE) then 0%nat else 13%nat
  | XPost _ _ | XAddr _ => 3%nat
  | XBin op _ _ => if wrapb o op then 0%nat else natl op
  | XComma _ _ => if wrapb o COMMA then 0%nat else 14%nat
  | XAsg op _ _ => if wrapb o op then 0%nat else 13%nat
  | XCond _ _ _ => if wrapb o QUEST then 0%nat else 12%nat
  | _ => 0%nat
  end.
Lemma natl_le op : existsb (Z.eqb op) all_binops = true -> (1 <= natl op <= 11)%nat.
Proof.
  intros Hop. apply binop_cases in Hop. cbn in Hop.
  repeat (destruct Hop as [<- | Hop]; [vm_compute; lia|]). contradiction.
Qed.
Lemma plev_le e : forall o, okx e = true -> (plev e o <= 14)%nat.
Proof.
  induction e; intros o H; cbn [plev okx] in *; try lia; auto.
  - destruct (wrapb _ _); lia.
  - destruct (wrapb _ _); [lia|]. rewrite !andb_true_iff in H. pose proof (natl_le op). intuition lia.
  - destruct (wrapb _ _); lia.
  - destruct (wrapb _ _); lia.
  - destruct (wrapb _ _); lia.
Qed.
(* under an operator, everything is in parentheses but sums from ++, -- and &, and the same associative operator *)
Lemma wrapb_true o i : o <> 0 -> o <> EQ -> is_associative_operator i = false -> wrapb o i = true.
Proof.
  intros H1 H2 H3. unfold wrapb. rewrite H3. destruct (Z.eqb_spec o 0), (Z.eqb_spec o EQ); tauto.
Qed.
Lemma wrapb_cases o i : o <> 0 -> o <> EQ -> wrapb o i = true \/ (is_associative_operator i = true /\ i = o).
Proof.
  intros H1 H2. unfold wrapb. destruct (Z.eqb_spec o 0), (Z.eqb_spec o EQ); try tauto. cbn.
  destruct (is_associative_operator i); [|auto]. destruct (Z.eqb_spec i o); auto.
Qed.
Lemma asg_not_assoc op : existsb (Z.eqb op) assign_ops = true -> is_associative_operator op = false.
Proof.
  intros H. apply existsb_exists in H as (x & I & E). apply Z.eqb_eq in E. subst x. cbn in I.
  repeat (destruct I as [<- | I]; [reflexivity|]). contradiction.
Qed.
Lemma plev_under e : forall o, o <> 0 -> o <> EQ -> okx e = true ->
  plev e o = 0%nat \/ (postlike e = true /\ plev e o = 3%nat) \/
  (is_associative_operator o = true /\ plev e o = natl o /\ (o = EQ_EQ -> eqlike e = true)).
Proof.
  induction e; intros o H1 H2 H; cbn [plev okx postlike eqlike] in *; auto.
  - destruct (IHe CAST) as [E | [E | [E _]]]; auto; try discriminate.
  - left. rewrite wrapb_true; auto. destruct inc; reflexivity.
  - destruct (wrapb_cases o op) as [-> | [A ->]]; auto.
    destruct (wrapb o o); auto. right; right. repeat split; auto. intros ->. reflexivity.
  - left. rewrite wrapb_true; auto.
  - left. rewrite wrapb_true; auto. rewrite !andb_true_iff in H. apply asg_not_assoc. tauto.
  - left. rewrite wrapb_true; auto.
Qed.
Lemma plev_not_assoc e o : o <> 0 -> o <> EQ -> is_associative_operator o = false -> okx e = true -> (plev e o <= 3)%nat.
Proof. intros H1 H2 H3 H. destruct (plev_under e o H1 H2 H) as [E | [[_ E] | [E _]]]; try lia. congruence. Qed.

Lemma bin_levels op a b : okx (XBin op a b) = true -> (plev a op <= natl op)%nat /\ (plev b op <= rlim op)%nat.
Proof.
  intros H. cbn [okx] in H. rewrite !andb_true_iff in H. destruct H as [[[[[Hop Ha] Hb] Hm] Hs] He].
  assert (H0 : op <> 0 /\ op <> EQ).
  { apply binop_cases in Hop. cbn in Hop. repeat (destruct Hop as [<- | Hop]; [split; discriminate|]). contradiction. }
  destruct H0 as [H0 H1].
  pose proof (plev_under a op H0 H1 Ha) as A. pose proof (plev_under b op H0 H1 Hb) as B.
  apply binop_cases in Hop. cbn in Hop.
  repeat (destruct Hop as [<- | Hop];
    [ clear H0 H1; cbn in Hm, Hs, He;
      try (apply andb_true_iff in Hm as [Hm1 Hm2]; apply negb_true_iff in Hm1, Hm2);
      try apply negb_true_iff in Hs; try apply negb_true_iff in He;
      split;
      [ destruct A as [E | [[P E] | [As [E _]]]]; rewrite E; try (vm_compute; lia); try discriminate As; congruence
      | destruct B as [E | [[P E] | [As [E Q]]]]; rewrite E; try (vm_compute; lia); try discriminate As; try congruence;
        try (rewrite (Q eq_refl) in He; discriminate) ]|]).
  contradiction.
Qed.
Lemma addlike_lev e : addlike e = true -> okx e = true -> (plev e 0 <= 3)%nat.
Proof.
  induction e; intros A H; cbn [plev okx addlike] in *; try lia; try discriminate; auto.
  - apply plev_not_assoc; auto; discriminate.
  - destruct (wrapb 0 op); [lia|]. cbn in A. rewrite !orb_true_iff in A.
    repeat match goal with A : _ \/ _ |- _ => destruct A as [A|A] end; try discriminate;
    apply Z.eqb_eq in A; subst op; vm_compute; lia.
Qed.
Lemma comma_lev e : commalike e = false -> okx e = true -> (plev e EQ <= 13)%nat.
Proof.
  induction e; intros A H; cbn [plev okx commalike] in *; try lia; try discriminate; auto.
  - assert (C0 : CAST <> 0) by discriminate. assert (C1 : CAST <> EQ) by discriminate.
    pose proof (plev_not_assoc e CAST C0 C1 eq_refl H). lia.
  - destruct (wrapb _ _); [lia|]. rewrite !andb_true_iff in H. pose proof (natl_le op). intuition lia.
Qed.
End Syn.
