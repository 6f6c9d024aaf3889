(** * Facts about shell arithmetic (ShArith): numerals, tokens, levels, reassociation *)
From Coq Require Import ZArith List Lia Bool.
From Verif Require Import Base Numerals Output Ast Parse ShArith.
Import ListNotations.
Open Scope Z_scope.

(** ** Decimal numerals *)
Lemma dec_go_app f : forall n acc, dec_go f n acc = dec_go f n [] ++ acc.
Proof.
  induction f; intros n acc; cbn [dec_go]; [reflexivity|].
  destruct (n <? 10); [reflexivity|]. rewrite IHf. rewrite (IHf _ [_]). rewrite <- app_assoc. reflexivity.
Qed.
Lemma dec_go_ok : forall f n, 0 <= n -> (Z.to_nat (Z.log2 n) < f)%nat -> denotes 10 (dec_go f n []) n.
Proof.
  induction f; intros n Hn Hf; [lia|]. cbn [dec_go].
  destruct (Z.ltb_spec n 10).
  - apply denotes_single; [apply digit_char; lia | lia].
  - rewrite dec_go_app.
    assert (0 < n / 10) by (apply Z.div_str_pos; lia).
    assert (Z.log2 (n / 10) < Z.log2 n).
    { apply Z.log2_lt_pow2; [lia|]. apply Z.le_lt_trans with (n / 2).
      - apply Z.div_le_compat_l; lia.
      - apply Z.div_lt_upper_bound; [lia|]. rewrite <- Z.pow_succ_r by apply Z.log2_nonneg.
        apply Z.log2_spec; lia. }
    pose proof (Z.log2_nonneg (n / 10)).
    eapply Output.denotes_eq; [eapply denotes_snoc|].
    + apply IHf; [lia|]. lia.
    + lia.
    + apply digit_char. pose proof (Z.mod_pos_bound n 10). lia.
    + pose proof (Z.mod_pos_bound n 10). lia.
    + pose proof (Z.div_mod n 10). lia.
Qed.
Lemma decimal_ok v : 0 <= v -> denotes 10 (decimal v) v.
Proof.
  intros H. unfold decimal. destruct (Z.ltb_spec v 0); [lia|]. apply dec_go_ok; lia.
Qed.
Lemma decimal_neg v : v < 0 -> decimal v = 45 :: decimal (- v).
Proof.
  intros H. unfold decimal. destruct (Z.ltb_spec v 0); [|lia]. destruct (Z.ltb_spec (- v) 0); [lia|]. reflexivity.
Qed.

Lemma digit_small c d : digit_of c = Some d -> d < 10 -> c = 48 + d /\ 0 <= d.
Proof.
  unfold digit_of. intros H L.
  destruct ((48 <=? c) && (c <=? 57)) eqn:A.
  - inversion H; subst. apply andb_true_iff in A as [A _]. apply Z.leb_le in A. lia.
  - destruct ((65 <=? c) && (c <=? 90)) eqn:B.
    + inversion H; subst. apply andb_true_iff in B as [B _]. apply Z.leb_le in B. lia.
    + destruct ((97 <=? c) && (c <=? 122)) eqn:C; [|discriminate].
      inversion H; subst. apply andb_true_iff in C as [C _]. apply Z.leb_le in C. lia.
Qed.
Lemma digit_inj c1 c2 d : digit_of c1 = Some d -> digit_of c2 = Some d -> d < 10 -> c1 = c2.
Proof. intros H1 H2 L. apply digit_small in H1, H2; lia. Qed.
Lemma digit_dig c d : digit_of c = Some d -> d < 10 -> is_dig c = true.
Proof.
  intros H L. apply digit_small in H as [-> ?]; auto. unfold is_dig. apply andb_true_iff.
  split; apply Z.leb_le; lia.
Qed.

Lemma denotes_inj l1 : forall l2 v, denotes 10 l1 v -> denotes 10 l2 v -> l1 = l2.
Proof.
  induction l1 as [|c1 l1 IH] using rev_ind; intros l2 v [H1 C1] [H2 C2]; [discriminate|].
  destruct (exists_last (l := l2)) as (l2' & c2 & ->). { intros ->. discriminate. }
  assert (V : forall l c w, numeral_value 10 (l ++ [c]) = Some w ->
     exists q d, value_from 10 0 l = Some q /\ digit_of c = Some d /\ 0 <= d < 10 /\ w = q * 10 + d).
  { intros l c w Hw. unfold numeral_value in Hw. destruct (l ++ [c]) eqn:E; [destruct l; discriminate|].
    rewrite <- E in Hw. rewrite value_from_app in Hw. destruct (value_from 10 0 l) as [q|]; [|discriminate].
    cbn [value_from] in Hw. destruct (digit_of c) as [d|] eqn:Ed; [|discriminate].
    destruct (Z.ltb_spec d 10); [|discriminate]. pose proof (digit_of_nonneg _ _ Ed).
    exists q, d. inversion Hw. repeat split; auto; lia. }
  destruct (V _ _ _ H1) as (q1 & d1 & Q1 & D1 & B1 & E1).
  destruct (V _ _ _ H2) as (q2 & d2 & Q2 & D2 & B2 & E2).
  assert (q1 = q2 /\ d1 = d2) as [-> ->] by lia.
  rewrite (digit_inj _ _ _ D1 D2) by lia. f_equal.
  assert (P : forall l c q, canonical (l ++ [c]) -> value_from 10 0 l = Some q -> l <> [] -> denotes 10 l q).
  { intros l c q C Q N. destruct l as [|x l]; [congruence|]. split; [exact Q|].
    destruct C as [C | (y & r & C & Y)].
    - destruct l; discriminate.
    - inversion C; subst. right. eauto. }
  assert (Z0 : forall l c q, canonical (l ++ [c]) -> value_from 10 0 l = Some q -> l <> [] -> 1 <= q).
  { intros l c q C Q N. destruct l as [|x l]; [congruence|].
    destruct C as [C | (y & r & C & Y)]; [destruct l; discriminate|]. inversion C; subst.
    cbn [value_from] in Q. destruct (digit_of y) eqn:E; [|discriminate].
    destruct (z <? 10); [|discriminate].
    assert (z <> 0). { intros ->. apply Y. eapply (digit_inj y 48 0); [exact E|reflexivity|lia]. }
    pose proof (digit_of_nonneg _ _ E). apply value_from_lb in Q; lia. }
  destruct (list_eq_dec Z.eq_dec l1 []) as [->|N1], (list_eq_dec Z.eq_dec l2' []) as [->|N2]; auto.
  - cbn in Q1. inversion Q1; subst. pose proof (Z0 _ _ _ C2 Q2 N2). lia.
  - cbn in Q2. inversion Q2; subst. pose proof (Z0 _ _ _ C1 Q1 N1). lia.
  - eapply IH; [eapply P; eauto | eapply P; eauto].
Qed.

Lemma putint_decimal n : int_range n -> putint n = Some (decimal n).
Proof.
  intros H. destruct (putint_ok n H) as (ds & E & D). rewrite E. f_equal.
  destruct (Z.ltb_spec n 0).
  - rewrite decimal_neg by lia. f_equal. eapply denotes_inj; [exact D|]. rewrite Z.abs_neq by lia. apply decimal_ok. lia.
  - eapply denotes_inj; [exact D|]. rewrite Z.abs_eq by lia. apply decimal_ok. lia.
Qed.
Lemma decimal_inj a b : 0 <= a -> 0 <= b -> decimal a = decimal b -> a = b.
Proof.
  intros Ha Hb E. destruct (decimal_ok a Ha) as [V1 _], (decimal_ok b Hb) as [V2 _]. rewrite E in V1. congruence.
Qed.

(** ** Characters of words *)
Lemma digit_word c d : digit_of c = Some d -> is_word c = true.
Proof.
  unfold digit_of, is_word. intros H.
  destruct ((48 <=? c) && (c <=? 57)) eqn:A; [rewrite !orb_true_r; reflexivity|].
  destruct ((65 <=? c) && (c <=? 90)) eqn:B; [rewrite !orb_true_r; reflexivity|].
  destruct ((97 <=? c) && (c <=? 122)) eqn:C; [rewrite !orb_true_r; reflexivity|]. discriminate.
Qed.
Lemma value_word b l : forall acc v, value_from b acc l = Some v -> forallb is_word l = true.
Proof.
  induction l as [|c l IH]; intros acc v H; [reflexivity|]. cbn [value_from] in H. cbn [forallb].
  destruct (digit_of c) eqn:E; [|discriminate]. destruct (z <? b); [|discriminate].
  rewrite (digit_word _ _ E). cbn. eauto.
Qed.
Lemma numeral_word b l v : numeral_value b l = Some v -> forallb is_word l = true.
Proof. destruct l; [discriminate|]. apply value_word. Qed.
Lemma decimal_word v : 0 <= v -> forallb is_word (decimal v) = true.
Proof. intros H. destruct (decimal_ok v H) as [V _]. eapply numeral_word; eauto. Qed.
Lemma decimal_tok v : 0 <= v -> word_tok (decimal v) (TNum v).
Proof.
  intros H. destruct (decimal_ok v H) as [V [C | (c & r & C & N)]].
  - rewrite C in *. cbn in V. inversion V; subst. apply w_zero.
  - rewrite C in *. eapply w_dec; eauto; []. cbn [numeral_value value_from] in V.
    destruct (digit_of c) eqn:E; [|discriminate]. destruct (Z.ltb_spec z 10); [|discriminate].
    eapply digit_dig; eauto; lia.
Qed.

(** ** Texts that lex to given tokens whatever harmless text follows *)
Definition safe (r : list Z) : Prop := match r with [] => True | c :: _ => c = 32 \/ c = 41 \/ c = 58 end.
Definition Lx (s : list Z) (ts : list tok) : Prop :=
  forall r tr, safe r -> lexr r tr -> lexr (s ++ r) (ts ++ tr).

Lemma Lx_lexr s ts : Lx s ts -> lexr s ts.
Proof. intros H. rewrite <- (app_nil_r s), <- (app_nil_r ts). apply H; [exact I|constructor]. Qed.
Lemma Lx_word w t : forallb is_word w = true -> word_tok w t -> Lx w [t].
Proof.
  intros W T r tr S L. cbn. apply l_word; auto. destruct r; [exact I|].
  destruct S as [->|[->| ->]]; reflexivity.
Qed.
Lemma Lx_name n : is_ident n -> Lx n [TName n].
Proof. intros H. apply Lx_word; [apply H | constructor; exact H]. Qed.
Lemma Lx_dec v : 0 <= v -> Lx (decimal v) [TNum v].
Proof. intros H. apply Lx_word; [apply decimal_word | apply decimal_tok]; auto. Qed.

Lemma table_no_space p op : In (p, op) op_table -> ~ In 32 p.
Proof.
  intros H. assert (F : Forall (fun q => ~ In 32 (fst q)) op_table).
  { repeat (constructor; [cbn; intuition discriminate|]). constructor. }
  rewrite Forall_forall in F. apply (F _ H).
Qed.
Lemma starts_space p' p r : starts p' (p ++ 32 :: r) -> ~ In 32 p' -> (length p' <= length p)%nat.
Proof.
  intros (q & E) N. destruct (Nat.le_gt_cases (length p') (length p)) as [|L]; auto. exfalso. apply N.
  assert (nth_error (p ++ 32 :: r) (length p) = Some 32).
  { rewrite nth_error_app2 by lia. rewrite Nat.sub_diag. reflexivity. }
  rewrite E in H. rewrite nth_error_app1 in H by lia. eapply nth_error_In; eauto.
Qed.
Lemma lex_op_space p op r ts : In (p, op) op_table -> lexr r ts -> lexr (p ++ 32 :: r) (TOp op :: ts).
Proof.
  intros H L. apply l_op; auto; [|constructor; auto].
  intros p' op' H' S. eapply starts_space; eauto using table_no_space.
Qed.
Lemma Lx_bin a ta p op b tb : In (p, op) op_table -> Lx a ta -> Lx b tb ->
  Lx (a ++ ([32] ++ p ++ [32]) ++ b) (ta ++ TOp op :: tb).
Proof.
  intros H La Lb r tr S L. rewrite <- !app_assoc. apply La; [left; reflexivity|].
  cbn [app]. constructor. apply lex_op_space; auto.
Qed.
(* tokens whose text cannot be extended *)
Lemma table_head c n : Forall (fun q : list Z * Z => hd 0 (fst q) = c -> (length (fst q) <= n)%nat) op_table ->
  forall p' op' r, In (p', op') op_table -> starts p' (c :: r) -> (length p' <= n)%nat.
Proof.
  intros F p' op' r H (q & E). rewrite Forall_forall in F. pose proof (F _ H) as G. cbn [fst] in G. apply G.
  destruct p' as [|x p']; [|inversion E; reflexivity].
  exfalso. unfold op_table in H. cbn in H. intuition discriminate.
Qed.
Lemma Lx_par a ta : Lx a ta -> Lx ([40] ++ a ++ [41]) (TOp LPAR :: ta ++ [TOp RPAR]).
Proof.
  intros La r tr S L. cbn. rewrite <- !app_assoc.
  apply (l_op [40] LPAR); [cbn; tauto| |].
  - intros p' op' H' St. eapply (table_head 40 1); eauto.
    repeat (constructor; [cbn; try (intros; discriminate); try lia|]). constructor.
  - apply La; [right; left; reflexivity|]. cbn.
    apply (l_op [41] RPAR); [cbn; tauto| |auto].
    intros p' op' H' St. eapply (table_head 41 1); eauto.
    repeat (constructor; [cbn; try (intros; discriminate); try lia|]). constructor.
Qed.
Lemma Lx_un op c a ta : op = MINUS /\ c <> 45 \/ op = TILDE \/ op = EXCL -> c <> 61 -> Lx (c :: a) ta ->
  Lx ([op] ++ c :: a) (TOp op :: ta).
Proof.
  intros H N La r tr S L. change (([op] ++ c :: a) ++ r) with ([op] ++ (c :: a) ++ r). cbn [app].
  apply (l_op [op] op).
  - destruct H as [[-> _]|[->| ->]]; cbn; tauto.
  - intros p' op' H' (q & E). destruct p' as [|x p']; [cbn; lia|]. inversion E; subst x.
    destruct p' as [|y p']; [cbn; lia|]. exfalso. cbn in H2. inversion H2; subst y.
    assert (F : Forall (fun q : list Z * Z => match fst q with
        | 45 :: y :: _ => y = 45 \/ y = 61 | 33 :: y :: _ => y = 61 | 126 :: _ :: _ => False | _ => True end) op_table).
    { repeat (constructor; [cbn; tauto|]). constructor. }
    rewrite Forall_forall in F. pose proof (F _ H') as G. cbn [fst] in G.
    destruct H as [[-> X]|[->| ->]]; unfold MINUS, TILDE, EXCL in G; tauto.
  - apply La; auto.
Qed.
Lemma Lx_colon a ta b tb : Lx a ta -> Lx b tb -> Lx (a ++ [58; 32] ++ b) (ta ++ TOp COLON :: tb).
Proof.
  intros La Lb r tr S L. rewrite <- !app_assoc. apply La; [right; right; reflexivity|].
  cbn [app]. apply (lex_op_space [58] COLON); [cbn; tauto|]. apply Lb; auto.
Qed.

(** ** Lexing is a function *)
Lemma word_split w1 : forall w2 r1 r2, forallb is_word w1 = true -> forallb is_word w2 = true ->
  match r1 with c :: _ => is_word c = false | [] => True end ->
  match r2 with c :: _ => is_word c = false | [] => True end -> w1 ++ r1 = w2 ++ r2 -> w1 = w2 /\ r1 = r2.
Proof.
  induction w1 as [|c w1 IH]; intros [|c2 w2] r1 r2 H1 H2 S1 S2 E; cbn in *; auto.
  - subst r1. apply andb_true_iff in H2 as [? _]. congruence.
  - subst r2. apply andb_true_iff in H1 as [? _]. congruence.
  - inversion E; subst. apply andb_true_iff in H1 as [_ ?], H2 as [_ ?].
    destruct (IH w2 r1 r2) as [-> ->]; auto.
Qed.
Lemma numeral_dig b w v c r : b <= 10 -> numeral_value b w = Some v -> w = c :: r -> is_dig c = true.
Proof.
  intros B H ->. cbn [numeral_value value_from] in H. destruct (digit_of c) eqn:E; [|discriminate].
  destruct (Z.ltb_spec z b); [|discriminate]. eapply digit_dig; eauto; lia.
Qed.
Lemma word_tok_fun w t1 t2 : word_tok w t1 -> word_tok w t2 -> t1 = t2.
Proof.
  assert (X : forall v x w, (x = 120 \/ x = 88) -> numeral_value 8 (x :: w) = Some v -> False).
  { intros v x w' [->| ->] H; cbn in H; discriminate. }
  intros H1 H2. inversion H1; subst; inversion H2; subst; try reflexivity; try congruence;
    repeat match goal with
    | H : is_ident (48 :: _) |- _ => exfalso; destruct H as [H _]; discriminate
    | H : is_ident (?c :: _), H' : is_dig ?c = true |- _ => exfalso; destruct H as [H _]; congruence
    | H : _ :: _ = _ :: _ |- _ => inversion H; subst; clear H
    | H : numeral_value 8 [] = Some _ |- _ => discriminate
    | H : numeral_value 8 (?x :: _) = Some _, H' : ?x = 120 \/ ?x = 88 |- _ => exfalso; eapply X; eauto
    end; try congruence.
  all: try (exfalso; eapply X; eauto; fail).
Qed.
Lemma app_len_inj (A : Type) (p : list A) : forall p' r r', length p = length p' -> p ++ r = p' ++ r' -> p = p' /\ r = r'.
Proof.
  induction p as [|x p IH]; intros [|y p'] r r' L E; cbn in *; try discriminate; auto.
  inversion E; inversion L; subst. destruct (IH p' r r') as [-> ->]; auto.
Qed.
Lemma lexr_fun s t1 : lexr s t1 -> forall t2, lexr s t2 -> t1 = t2.
Proof.
  assert (NW : forall p op r w t r2, In (p, op) op_table -> p ++ r = w ++ r2 -> forallb is_word w = true -> word_tok w t -> False).
  { intros p op r w t r2 H E W T.
    assert (F : Forall (fun q : list Z * Z => match fst q with c :: _ => is_word c = false | [] => False end) op_table).
    { repeat (constructor; [reflexivity|]). constructor. }
    rewrite Forall_forall in F. pose proof (F _ H) as G. cbn in G. destruct p as [|c p]; [tauto|].
    destruct w as [|d w].
    - inversion T; subst; try discriminate. destruct H0 as [[] _].
    - inversion E; subst. cbn in W. apply andb_true_iff in W as [? _]. congruence. }
  assert (NS : forall p op r r2, In (p, op) op_table -> p ++ r = 32 :: r2 -> False).
  { intros p op r r2 H E. assert (F : Forall (fun q : list Z * Z => match fst q with c :: _ => c <> 32 | [] => False end) op_table).
    { repeat (constructor; [cbn; discriminate|]). constructor. }
    rewrite Forall_forall in F. pose proof (F _ H) as G. cbn in G. destruct p as [|c p]; [tauto|]. inversion E; subst. tauto. }
  assert (NW2 : forall w t r r2, w ++ r = 32 :: r2 -> forallb is_word w = true -> word_tok w t -> False).
  { intros w t r r2 E W T. destruct w as [|d w].
    - inversion T; subst; try discriminate. destruct H as [[] _].
    - inversion E; subst. discriminate. }
  assert (NN : forall w t, word_tok w t -> w = [] -> False).
  { intros w t T ->. inversion T; subst; try discriminate. destruct H as [[] _]. }
  assert (NO : forall p op, In (p, op) op_table -> p = [] -> False).
  { intros p op H ->. unfold op_table in H. cbn in H. intuition discriminate. }
  induction 1 as [|r ts L IH|w t r ts W S T L IH|p op r ts I M L IH]; intros t2 H2.
  - inversion H2 as [|? ? ? E|w t r ts W S T L E|p op r ts I M L E]; auto.
    + apply app_eq_nil in E as [-> _]. exfalso; eauto.
    + apply app_eq_nil in E as [-> _]. exfalso; eauto.
  - inversion H2 as [|? ? ? E|w t r' ts' W S T L' E|p op r' ts' I M L' E]; subst; auto.
    + exfalso; eapply NW2; eauto.
    + exfalso; eapply NS; eauto.
  - inversion H2 as [E|? ? ? E|w' t' r' ts' W' S' T' L' E|p op r' ts' I M L' E].
    + symmetry in E. apply app_eq_nil in E as [-> _]. exfalso; eauto.
    + exfalso; eapply NW2; eauto.
    + destruct (word_split w' w r' r) as [-> ->]; auto. f_equal; eauto using word_tok_fun.
    + exfalso; eapply NW; eauto.
  - inversion H2 as [E|? ? ? E|w' t' r' ts' W' S' T' L' E|p' op' r' ts' I' M' L' E].
    + symmetry in E. apply app_eq_nil in E as [-> _]. exfalso; eauto.
    + exfalso; symmetry in E; eapply NS; eauto.
    + exfalso; symmetry in E; eapply NW; eauto.
    + assert (length p' = length p).
      { apply PeanoNat.Nat.le_antisymm.
        - eapply M; eauto. exists r'. congruence.
        - eapply M'; eauto. exists r. congruence. }
      destruct (app_len_inj _ p' p r' r H E) as [-> ->].
      f_equal; [|eauto]. f_equal.
      assert (ND : NoDup (map fst op_table)).
      { unfold op_table. cbn. repeat (constructor; [cbn; intuition discriminate|]). constructor. }
      clear - ND I I'. induction op_table as [|[a b] l IHl]; [contradiction|].
      inversion ND; subst. destruct I as [I|I], I' as [I'|I'].
      * congruence.
      * exfalso. apply H1. inversion I; subst. apply (in_map fst) in I'. exact I'.
      * exfalso. apply H1. inversion I'; subst. apply (in_map fst) in I. exact I.
      * auto.
Qed.
