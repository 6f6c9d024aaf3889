(** * C19: shell arithmetic computes what the C expression computes *)
From Coq Require Import ZArith List Lia Bool.
From Verif Require Import Base Numerals Output Ast Parse ShArith ShExpr ShCSem ShEqs ShFacts ShFacts2 ShSyn ShSem ShMain ShMain6.
Import ListNotations.
Open Scope Z_scope.
Local Notation length := List.length.

(** The claim.  [e] is in the static fragment [okx]; C gives it value [v], final store [s'], reads [R], writes [W]
    ([cev]); expanding memory addresses early is not noticeable ([hst]).  Then in every shell state
    that holds the constants ([cst]) and the C values of what the expression reads ([agree]), the emitted
    text expands to the decimal numeral of [v], the final shell state holds the values of [s'] at what
    is written, and nothing else changed ([off]).  A shell can do nothing else with the text. *)
Theorem c19_partial N vn mn zn moff zsz e s v s' R W H V g0 :
  32 <= N -> names_ok vn mn zn moff zsz -> okx e = true ->
  cev moff zsz e s = Some (v, s', R, W) -> hst moff zsz e s = Some (H, V) ->
  cst mn zn moff zsz g0 -> agree vn (R ++ H) g0 s ->
  (exists g1, exp N (comp_rvalue_go vn mn zn e false 0) g0 (decimal v) g1 /\ agree vn W g1 s' /\ off vn W g0 g1) /\
  (forall l g1, exp N (comp_rvalue_go vn mn zn e false 0) g0 l g1 ->
     l = decimal v /\ agree vn W g1 s' /\ off vn W g0 g1).
Proof.
  intros HN NK Ok E1 E2 C Ag. destruct (Ph_all N HN vn mn zn moff zsz NK e) as (_ & B & _).
  destruct (B 0 s v s' R W H V g0 Ok E1 E2 C Ag) as (g3 & X & A3 & O3). split; [exists g3; auto|].
  intros l g1 X1. destruct (proj1 (exp_ari_fun N) _ _ _ _ X _ _ X1) as [<- <-]. auto.
Qed.

(** As an expression statement, where the text stands between colon-space-dollar-paren-paren and
    paren-paren, and as the right-hand side of an assignment statement. *)
Theorem c19_arith_partial N vn mn zn moff zsz e s v s' R W H V g0 :
  32 <= N -> names_ok vn mn zn moff zsz -> okx e = true ->
  cev moff zsz e s = Some (v, s', R, W) -> hst moff zsz e s = Some (H, V) ->
  cst mn zn moff zsz g0 -> agree vn (R ++ H) g0 s ->
  (exists g1, ari N (comp_rvalue_go vn mn zn e true 0) g0 v g1 /\ agree vn W g1 s' /\ off vn W g0 g1) /\
  (forall w g1, ari N (comp_rvalue_go vn mn zn e true 0) g0 w g1 -> w = v /\ agree vn W g1 s' /\ off vn W g0 g1).
Proof.
  intros HN NK Ok E1 E2 C Ag. destruct (Ph_all N HN vn mn zn moff zsz NK e) as (A & _).
  apply agree_app in Ag as [AR AH].
  destruct (opd_run N vn mn zn moff zsz NK _ _ _ R W V s s' v g0 (A 0 s v s' R W H V g0 Ok E1 E2 C AH) (plev_le e 0 Ok) C AR)
    as (g3 & X & A3 & O3). split; [exists g3; auto|].
  intros l g1 X1. destruct (proj2 (exp_ari_fun N) _ _ _ _ X _ _ X1) as [<- <-]. auto.
Qed.

(** ** Names like pnut's, and a shell state for every store *)
Definition vn0 (x : nat) : name := [95; 118] ++ decimal (Z.of_nat x).           (* _v3 *)
Definition mn0 (k : nat) : name := [95; 95; 109] ++ decimal (Z.of_nat k).       (* __m3 *)
Definition zn0 (k : nat) : name := [95; 95; 122] ++ decimal (Z.of_nat k).       (* __z3 *)
Definition moff0 (k : nat) : Z := Z.of_nat k.
Definition zsz0 (k : nat) : Z := Z.of_nat k + 1.
Definition chr_of (n : name) : Z :=
  match find (fun c => if list_eq_dec Z.eq_dec (character_ident (Z.of_nat c)) n then named (Z.of_nat c) else false) (seq 0 128) with
  | Some c => Z.of_nat c
  | None => 0
  end.
Fixpoint after (p n : name) : option name :=
  match p, n with
  | [], _ => Some n
  | a :: p, b :: n => if a =? b then after p n else None
  | _, [] => None
  end.
Definition num_after (p n : name) : option Z :=
  match after p n with Some d => numeral_value 10 d | None => None end.
Definition st0 (s : store) : vars := fun n =>
  match num_after [95; 118] n with
  | Some v => s (LV (Z.to_nat v))
  | None =>
      match num_after [95; 95; 109] n with
      | Some v => v
      | None =>
          match num_after [95; 95; 122] n with
          | Some v => v + 1
          | None => match num_after [95] n with Some a => s (LC a) | None => chr_of n end
          end
      end
  end.

Lemma after_app p d : after p (p ++ d) = Some d.
Proof. induction p; cbn; [reflexivity|]. rewrite Z.eqb_refl. auto. Qed.
Lemma num_after_dec p v : 0 <= v -> num_after p (p ++ decimal v) = Some v.
Proof. intros H. unfold num_after. rewrite after_app. apply (decimal_ok v H). Qed.
Lemma dec_head v : 0 <= v -> exists c r, decimal v = c :: r /\ In c [48;49;50;51;52;53;54;55;56;57].
Proof.
  intros H. destruct (decimal_ok v H) as [V K]. destruct (decimal v) as [|c r] eqn:E; [discriminate|].
  exists c, r. split; [reflexivity|]. pose proof (decimal_word v H) as W. rewrite E in W. cbn [forallb] in W.
  unfold numeral_value in V. cbn [value_from] in V.
  destruct (digit_of c) as [d|] eqn:Dg; [|discriminate]. destruct (d <? 10) eqn:L; [|discriminate].
  apply Z.ltb_lt in L. pose proof (digit_of_nonneg _ _ Dg). unfold digit_of in Dg.
  destruct ((48 <=? c) && (c <=? 57)) eqn:E1.
  - rewrite andb_true_iff, !Z.leb_le in E1. cbn. lia.
  - destruct ((65 <=? c) && (c <=? 90)) eqn:E2; [rewrite andb_true_iff, !Z.leb_le in E2; inversion Dg; lia|].
    destruct ((97 <=? c) && (c <=? 122)) eqn:E3; [rewrite andb_true_iff, !Z.leb_le in E3; inversion Dg; lia|discriminate].
Qed.
Lemma named_range c : named c = true -> In c (map Z.of_nat (seq 0 128)).
Proof.
  unfold named. rewrite !andb_true_iff, Z.leb_le, Z.ltb_lt. intros [[H1 H2] _]. apply in_map_iff. exists (Z.to_nat c).
  split; [lia|]. apply in_seq. lia.
Qed.
(* the 128 character names are told apart from each other and from the other families *)
Definition chr_fine (c : Z) : bool :=
  if named c then
    (chr_of (character_ident c) =? c)
    && match num_after [95; 118] (character_ident c), num_after [95; 95; 109] (character_ident c),
             num_after [95; 95; 122] (character_ident c), num_after [95] (character_ident c) with
       | None, None, None, None => true | _, _, _, _ => false end
    && match character_ident c with 95 :: 95 :: _ => true | _ => false end
  else true.
Lemma all_fine : forallb chr_fine (map Z.of_nat (seq 0 128)) = true.
Proof. vm_compute. reflexivity. Qed.
Lemma chr_state s c : named c = true -> st0 s (character_ident c) = c /\ exists r, character_ident c = 95 :: 95 :: r.
Proof.
  intros H. pose proof (proj1 (forallb_forall _ _) all_fine c (named_range c H)) as F. unfold chr_fine in F. rewrite H in F.
  rewrite !andb_true_iff in F. destruct F as [[F1 F2] F3]. apply Z.eqb_eq in F1. unfold st0.
  destruct (num_after [95; 118] _); [discriminate|]. destruct (num_after [95; 95; 109] _); [discriminate|].
  destruct (num_after [95; 95; 122] _); [discriminate|]. destruct (num_after [95] _); [discriminate|].
  split; [exact F1|]. exists (tl (tl (character_ident c))). unfold character_ident. reflexivity.
Qed.
Lemma names0_ok : names_ok vn0 mn0 zn0 moff0 zsz0.
Proof.
  assert (W : forall x, forallb is_word (decimal (Z.of_nat x)) = true) by (intros; apply decimal_word; lia).
  assert (I : forall x y, decimal (Z.of_nat x) = decimal (Z.of_nat y) -> x = y).
  { intros x y E. apply decimal_inj in E; lia. }
  constructor.
  - intros x. split; [reflexivity|]. cbn [vn0 app forallb]. rewrite W. reflexivity.
  - intros x. split; [reflexivity|]. cbn [mn0 app forallb]. rewrite W. reflexivity.
  - intros x. split; [reflexivity|]. cbn [zn0 app forallb]. rewrite W. reflexivity.
  - intros x y E. apply I. unfold vn0 in E. apply app_inv_head in E. exact E.
  - intros x a E. unfold vn0 in E. cbn in E. inversion E as [E1]. destruct (Z.ltb_spec a 0) as [L|L].
    + rewrite (decimal_neg a) in E1 by lia. discriminate.
    + destruct (dec_head a L) as (c & r & Ed & Hc). rewrite Ed in E1. inversion E1; subst c. cbn in Hc. lia.
  - intros x a E. unfold mn0 in E. cbn in E. inversion E as [E1]. destruct (decimal_head a) as (c & r & Ed & Hc).
    rewrite Ed in E1. inversion E1; congruence.
  - intros x a E. unfold zn0 in E. cbn in E. inversion E as [E1]. destruct (decimal_head a) as (c & r & Ed & Hc).
    rewrite Ed in E1. inversion E1; congruence.
  - intros x n v C E. unfold vn0 in E. cbn in E. destruct C as [c Hc|k|k].
    + destruct (chr_state (fun _ => 0) c Hc) as [_ [r Er]]. rewrite Er in E. discriminate.
    + discriminate.
    + discriminate.
Qed.
Lemma st0_cst s : cst mn0 zn0 moff0 zsz0 (st0 s).
Proof.
  intros n v C. destruct C as [c Hc|k|k].
  - apply (chr_state s c Hc).
  - unfold st0, mn0. change (num_after [95; 118] ([95; 95; 109] ++ decimal (Z.of_nat k))) with (@None Z).
    rewrite num_after_dec by lia. reflexivity.
  - unfold st0, zn0. change (num_after [95; 118] ([95; 95; 122] ++ decimal (Z.of_nat k))) with (@None Z).
    change (num_after [95; 95; 109] ([95; 95; 122] ++ decimal (Z.of_nat k))) with (@None Z).
    rewrite num_after_dec by lia. reflexivity.
Qed.
Lemma st0_agree s l : match l with LV _ => True | LC a => 0 <= a end -> st0 s (nm vn0 l) = s l.
Proof.
  destruct l as [x|a]; intros H; unfold st0, nm.
  - unfold vn0. rewrite num_after_dec by lia. rewrite Nat2Z.id. reflexivity.
  - destruct (dec_head a H) as (c & r & Ed & Hc).
    assert (P : forall d p, In d [118; 95] -> num_after (95 :: d :: p) (95 :: decimal a) = None).
    { intros d p Hd. unfold num_after. rewrite Ed. cbn [after]. rewrite Z.eqb_refl.
      destruct (Z.eqb_spec d c); [|reflexivity]. subst d. cbn in Hd, Hc. lia. }
    rewrite !P by (cbn; tauto). change (95 :: decimal a) with ([95] ++ decimal a). rewrite num_after_dec by auto. reflexivity.
Qed.

(** ** Reading texts by computation (used below only; sound by [run_sound]) *)
Inductive tx := TNu (v : Z) | TNa (n : name) | TPa (t : tx) | TUn (op : Z) (t : tx) | TBi (op : Z) (a b : tx)
              | TAs (op : Z) (n : name) (t : tx) | TCo (a b : tx) | TCd (c a b : tx).
Definition isid (n : name) : bool :=
  match n with c :: _ => negb (is_dig c) | [] => false end && forallb is_word n.
Lemma isid_ok n : isid n = true -> is_ident n.
Proof.
  unfold isid, is_ident. rewrite andb_true_iff. destruct n; [intros [? _]; discriminate|].
  rewrite negb_true_iff. auto.
Qed.
Fixpoint str (t : tx) : list Z :=
  match t with
  | TNu v => decimal v
  | TNa n => n
  | TPa t => [40] ++ str t ++ [41]
  | TUn op t => [op] ++ str t
  | TBi op a b => str a ++ ([32] ++ op_chars op ++ [32]) ++ str b
  | TAs op n t => n ++ ([32] ++ op_chars op ++ [32]) ++ str t
  | TCo a b => str a ++ ([32] ++ op_chars COMMA ++ [32]) ++ str b
  | TCd c a b => str c ++ ([32] ++ op_chars QUEST ++ [32]) ++ str a ++ [58; 32] ++ str b
  end.
Definition lev (t : tx) : nat :=
  match t with
  | TBi op _ _ => natl op | TAs _ _ _ => 13 | TCo _ _ => 14 | TCd _ _ _ => 12 | _ => 0
  end%nat.
Fixpoint neg (t : tx) : bool :=
  match t with
  | TUn op _ => op =? MINUS | TBi _ a _ | TCo a _ => neg a | TCd c _ _ => neg c | _ => false
  end.
Fixpoint wft (t : tx) : bool :=
  match t with
  | TNu v => 0 <=? v
  | TNa n => isid n
  | TPa t => (lev t <=? 14)%nat && wft t
  | TUn op t => existsb (Z.eqb op) [MINUS; TILDE; EXCL] && (negb (op =? MINUS) || negb (neg t)) && (lev t =? 0)%nat && wft t
  | TBi op a b => existsb (Z.eqb op) all_binops && (lev a <=? natl op)%nat && (lev b <=? rlim op)%nat && wft a && wft b
  | TAs op n t => existsb (Z.eqb op) assign_ops && isid n && (lev t <=? 13)%nat && wft t
  | TCo a b => (lev a <=? 13)%nat && (lev b <=? 14)%nat && wft a && wft b
  | TCd c a b => (lev c <=? 11)%nat && (lev a <=? 14)%nat && (lev b <=? 12)%nat && wft c && wft a && wft b
  end.
Section Read.
Variable N : Z.
Hypothesis HN : 32 <= N.
Fixpoint tden (t : tx) : den :=
  match t with
  | TNu v => fun s => Some (v, s)
  | TNa n => fun s => Some (s n, s)
  | TPa t => tden t
  | TUn op t => dun N op (tden t)
  | TBi op a b => dbin N op (tden a) (tden b)
  | TAs op n t => dasg N op n (tden t)
  | TCo a b => dcomma (tden a) (tden b)
  | TCd c a b => dcond (tden c) (tden a) (tden b)
  end.
Lemma inx op l : existsb (Z.eqb op) l = true -> In op l.
Proof. intros H. apply existsb_exists in H as (x & I & E). apply Z.eqb_eq in E. subst x. exact I. Qed.
Lemma tx_syn t : wft t = true -> SynE N (lev t) (str t) (neg t = true) (tden t).
Proof.
  induction t; cbn [wft lev str neg tden]; rewrite ?andb_true_iff, ?Nat.leb_le, ?Nat.eqb_eq, ?Z.leb_le.
  - intros H. eapply syn_m; [|apply syn_num; [apply decimal_word|apply decimal_tok]; auto]. tauto.
  - intros H. eapply syn_m; [|apply syn_name; apply isid_ok; auto]. tauto.
  - intros [H1 H2]. eapply syn_m; [|eapply syn_par; [|apply IHt; auto]; auto]. tauto.
  - intros [[[H1 H2] H3] H4]. specialize (IHt H4). rewrite H3 in IHt.
    eapply syn_m; [|eapply syn_un; [apply inx; exact H1| |exact IHt]].
    + intros ->. reflexivity.
    + intros -> E. rewrite E in H2. discriminate.
  - intros [[[[H1 H2] H3] H4] H5]. eapply syn_bin; eauto.
  - intros [[[H1 H2] H3] H4]. eapply syn_m; [|eapply syn_asg; [apply inx; exact H1|apply isid_ok; auto|exact H3|apply IHt; auto]]. tauto.
  - intros [[[H1 H2] H3] H4]. eapply syn_comma; eauto.
  - intros [[[[[H1 H2] H3] H4] H5] H6]. eapply syn_cond; eauto.
Qed.
Lemma lev_le t : wft t = true -> (lev t <= 14)%nat.
Proof.
  destruct t; cbn [wft lev]; rewrite ?andb_true_iff; intros H; try lia. pose proof (natl_le op). intuition lia.
Qed.
Inductive out := Val (l : list Z) (g : vars) (ts : list tx) | Stuck | Bad.
Definition same_str (a b : list Z) : bool := if list_eq_dec Z.eq_dec a b then true else false.
Fixpoint run1 (i : item) (g : vars) (ts : list tx) {struct i} : out :=
  match i with
  | Ch c => Val [c] g ts
  | Pv n => Val (decimal (g n)) g ts
  | Ar a =>
      match (fix run a g ts := match a with
               | [] => Val [] g ts
               | i :: a => match run1 i g ts with
                           | Val l g ts => match run a g ts with Val l' g ts => Val (l ++ l') g ts | o => o end
                           | o => o
                           end
               end) a g ts with
      | Val l g (t :: ts) =>
          if same_str l (str t) && wft t
          then match tden t g with Some (v, g) => Val (decimal v) g ts | None => Stuck end
          else Bad
      | Val _ _ [] => Bad
      | o => o
      end
  end.
Fixpoint run (a : list item) (g : vars) (ts : list tx) : out :=
  match a with
  | [] => Val [] g ts
  | i :: a => match run1 i g ts with
              | Val l g ts => match run a g ts with Val l' g ts => Val (l ++ l') g ts | o => o end
              | o => o
              end
  end.
Lemma run1_ar a g ts : run1 (Ar a) g ts =
  match run a g ts with
  | Val l g (t :: ts) =>
      if same_str l (str t) && wft t then match tden t g with Some (v, g) => Val (decimal v) g ts | None => Stuck end else Bad
  | Val _ _ [] => Bad
  | o => o
  end.
Proof. reflexivity. Qed.
Lemma same_str_ok a b : same_str a b = true -> a = b.
Proof. unfold same_str. destruct (list_eq_dec Z.eq_dec a b); [auto|discriminate]. Qed.
Definition means (c : list item) (g : vars) (o : out) : Prop :=
  match o with
  | Val l g' _ => exp N c g l g'
  | Stuck => forall l g', ~ exp N c g l g'
  | Bad => True
  end.
Lemma exp_app_inv a : forall b s l s2, exp N (a ++ b) s l s2 ->
  exists l1 l2 s1, exp N a s l1 s1 /\ exp N b s1 l2 s2 /\ l = l1 ++ l2.
Proof.
  induction a as [|i a IH]; intros b s l s2 H.
  - exists [], l, s. split; [constructor|auto].
  - cbn [app] in H. inversion H; subst;
      match goal with X : exp N (a ++ b) _ _ _ |- _ => apply IH in X as (l1 & l2 & s1' & X1 & X2 & ->) end.
    + exists (c :: l1), l2, s1'. split; [constructor; auto|auto].
    + exists (decimal (s n) ++ l1), l2, s1'. split; [constructor; auto|rewrite app_assoc; auto].
    + exists (decimal v ++ l1), l2, s1'. split; [econstructor; eauto|rewrite app_assoc; auto].
Qed.
Lemma run_list a : (forall i, In i a -> forall g ts, means [i] g (run1 i g ts)) -> forall g ts, means a g (run a g ts).
Proof.
  induction a as [|i a IH]; intros Hi g ts; [constructor|]. cbn [run].
  pose proof (Hi i (or_introl eq_refl) g ts) as H1. destruct (run1 i g ts) as [l g1 ts1| |]; [| |exact I].
  - assert (IHa := IH (fun j Hj => Hi j (or_intror Hj)) g1 ts1). destruct (run a g1 ts1) as [l' g2 ts2| |]; [| |exact I].
    + apply (exp_app N [i] a g l g1 l' g2 H1 IHa).
    + intros l2 g2 X. apply (exp_app_inv [i] a) in X as (l3 & l4 & g3 & X1 & X2 & _).
      destruct (proj1 (exp_ari_fun N) _ _ _ _ H1 _ _ X1) as [<- <-]. exact (IHa _ _ X2).
  - intros l2 g2 X. apply (exp_app_inv [i] a) in X as (l3 & l4 & g3 & X1 & X2 & _). exact (H1 _ _ X1).
Qed.
Fixpoint isz (i : item) : nat := match i with Ar a => S (fold_right (fun i n => isz i + n) 0 a) | _ => 1 end%nat.
Lemma isz_in i a : In i a -> (isz i < isz (Ar a))%nat.
Proof.
  cbn [isz]. induction a as [|j a IH]; [intros []|]. intros [-> | H]; cbn [fold_right]; [lia|]. specialize (IH H). lia.
Qed.
Lemma run1_sound n : forall i, (isz i < n)%nat -> forall g ts, means [i] g (run1 i g ts).
Proof.
  induction n as [|n IH]; [lia|]. intros i Hi g ts. destruct i as [c|a|x].
  - cbn. apply e_ch, e_nil.
  - rewrite run1_ar. assert (Ha := run_list a (fun j Hj => IH j (Nat.lt_le_trans _ _ _ (isz_in j a Hj) (proj1 (Nat.lt_succ_r _ _) Hi))) g ts).
    destruct (run a g ts) as [l g1 [|t ts1]| |]; try exact I.
    + destruct (same_str l (str t) && wft t) eqn:E; [|exact I]. apply andb_true_iff in E as [E1 E2].
      apply same_str_ok in E1. subst l. pose proof (tx_syn t E2) as S.
      destruct (tden t g1) as [[v g2]|] eqn:Et; cbn [means].
      * rewrite <- (app_nil_r (decimal v)). eapply e_ar; [|apply e_nil].
        eapply syn_ari; [exact Ha|exact S|apply lev_le; auto|exact Et].
      * intros l g2 X. inversion X as [| | |a' v t' s s1 l' s' Xa Xt]; subst. inversion Xa as [a' s l s2 us u w s3 X1 X2 X3 X4]; subst.
        destruct (proj1 (exp_ari_fun N) _ _ _ _ Ha _ _ X1) as [<- <-].
        destruct S as (us' & u' & L & A & D & _). rewrite <- (lexr_fun _ _ (Lx_lexr _ _ L) _ X2) in X3.
        rewrite (AG_fun _ _ _ X3 (AGx_AG _ _ _ (lev_le t E2) A)) in X4. rewrite D, Et in X4. discriminate.
    + intros l g2 X. inversion X as [| | |a' v t' s s1 l' s' Xa Xt]; subst. inversion Xa; subst. eapply Ha; eauto.
  - cbn. rewrite <- (app_nil_r (decimal (g x))) at 1. apply e_pv, e_nil.
Qed.
Lemma run_sound a g ts : means a g (run a g ts).
Proof. apply run_list. intros i _. apply (run1_sound (S (isz i))). lia. Qed.
End Read.

(** ** Wrong results *)
Definition text0 (e : xe) : list item := comp_rvalue_go vn0 mn0 zn0 e false 0.
(* C gives the expression a value and a store, and the shell (64 bits) ends otherwise, or not at all *)
Definition miscompiled (e : xe) (s : store) : Prop :=
  exists v s' R W, cev moff0 zsz0 e s = Some (v, s', R, W) /\
    forall g, ~ (exp 64 (text0 e) (st0 s) (decimal v) g /\ (forall l, match l with LV _ => True | LC a => 0 <= a end -> g (nm vn0 l) = s' l)).
Definition differs (e : xe) (s : store) (ts : list tx) (ls : list loc) : bool :=
  match cev moff0 zsz0 e s, run 64 (text0 e) (st0 s) ts with
  | Some (v, s', _, _), Val l g _ =>
      negb (same_str l (decimal v))
      || existsb (fun l => match l with LV _ => true | LC a => 0 <=? a end && negb (g (nm vn0 l) =? s' l)) ls
  | Some _, Stuck => true
  | _, _ => false
  end.
Lemma differs_ok e s ts ls : differs e s ts ls = true -> miscompiled e s.
Proof.
  unfold differs, miscompiled. destruct (cev moff0 zsz0 e s) as [[[[v s'] R] W]|]; [|discriminate].
  intros H. exists v, s', R, W. split; [reflexivity|]. intros g [X A].
  assert (HN : 32 <= 64) by lia. pose proof (run_sound 64 HN (text0 e) (st0 s) ts) as M.
  destruct (run 64 (text0 e) (st0 s) ts) as [l g' ts'| |]; [| |discriminate].
  - cbn [means] in M. destruct (proj1 (exp_ari_fun 64) _ _ _ _ M _ _ X) as [-> ->].
    apply orb_true_iff in H as [H|H].
    + unfold same_str in H. destruct (list_eq_dec Z.eq_dec (decimal v) (decimal v)); [discriminate|tauto].
    + apply existsb_exists in H as (m & _ & H). apply andb_true_iff in H as [H1 H2].
      rewrite A in H2; [rewrite Z.eqb_refl in H2; discriminate|]. destruct m; [auto|apply Z.leb_le; exact H1].
  - exact (M _ _ X).
Qed.
(* a store given by the values of the variables and of the words from 16 on *)
Definition mk (vs cs : list Z) : store := fun l =>
  match l with LV x => nth x vs 0 | LC a => if 16 <=? a then nth (Z.to_nat (a - 16)) cs 0 else 0 end.
Definition v_ (x : nat) := XVar x.
Definition n_ (x : nat) : tx := TNa (vn0 x).
Definition incp (x : nat) : tx := TPa (TAs PLUS_EQ (vn0 x) (TNu 1)).

(* x++ * 2, read as (x += 1) - (1 * 2) *)
Theorem c19_post_times_refuted : miscompiled (XBin STAR (XPost true (v_ 0)) (XInt 2)) (mk [5] []).
Proof. apply (differs_ok _ _ [TBi MINUS (incp 0) (TBi STAR (TNu 1) (TNu 2))] []). vm_compute. reflexivity. Qed.
(* a - x++ *)
Theorem c19_minus_post_refuted : miscompiled (XBin MINUS (v_ 0) (XPost true (v_ 1))) (mk [10; 5] []).
Proof. apply (differs_ok _ _ [TBi MINUS (TBi MINUS (n_ 0) (incp 1)) (TNu 1)] []). vm_compute. reflexivity. Qed.
(* -x++ *)
Theorem c19_neg_post_refuted : miscompiled (XUn MINUS (XPost true (v_ 0))) (mk [5] []).
Proof. apply (differs_ok _ _ [TBi MINUS (TUn MINUS (incp 0)) (TNu 1)] []). vm_compute. reflexivity. Qed.
(* ~5 and !5 are both compiled to -5 *)
Theorem c19_not_literal_refuted : miscompiled (XUn TILDE (XInt 5)) (mk [] []) /\ miscompiled (XUn EXCL (XInt 5)) (mk [] []).
Proof. split; apply (differs_ok _ _ [] []); vm_compute; reflexivity. Qed.
(* a == (b == c) loses its parentheses *)
Theorem c19_eq_eq_refuted : miscompiled (XBin EQ_EQ (v_ 0) (XPar (XBin EQ_EQ (v_ 1) (v_ 2)))) (mk [0; 1; 2] []).
Proof. apply (differs_ok _ _ [TBi EQ_EQ (TBi EQ_EQ (n_ 0) (n_ 1)) (n_ 2)] []). vm_compute. reflexivity. Qed.
(* a = (b, c) stores b *)
Theorem c19_assign_comma_refuted : miscompiled (XAsg EQ (v_ 0) (XPar (XComma (v_ 1) (v_ 2)))) (mk [0; 1; 2] []).
Proof. apply (differs_ok _ _ [TCo (TAs EQ (vn0 0) (n_ 1)) (n_ 2)] [LV 0]). vm_compute. reflexivity. Qed.
(* a[i & 7] = v writes to (a + i) & 7 *)
Theorem c19_index_lvalue_refuted : miscompiled (XAsg EQ (XIdx (v_ 0) (XBin AMP (v_ 1) (XInt 7))) (XInt 9)) (mk [16; 1] []).
Proof. apply (differs_ok _ _ [TBi AMP (TBi PLUS (n_ 0) (n_ 1)) (TNu 7); TAs EQ (95 :: decimal 1) (TNu 9)] [LC 17]). vm_compute. reflexivity. Qed.
(* (i = 3) && a[i] looks at a[i] for the old i *)
Theorem c19_early_read_refuted : miscompiled (XBin AMP_AMP (XPar (XAsg EQ (v_ 0) (XInt 3))) (XIdx (v_ 1) (v_ 0))) (mk [0; 16] [0; 0; 0; 1]).
Proof.
  apply (differs_ok _ _ [TBi PLUS (n_ 1) (n_ 0); TBi AMP_AMP (TPa (TAs EQ (vn0 0) (TNu 3))) (TNa (95 :: decimal 16))] []). vm_compute. reflexivity.
Qed.
(* c && a[i++] increments i when c is 0 *)
Theorem c19_early_write_refuted : miscompiled (XBin AMP_AMP (v_ 0) (XIdx (v_ 1) (XPost true (v_ 2)))) (mk [0; 16; 0] []).
Proof.
  apply (differs_ok _ _ [TBi MINUS (TBi PLUS (n_ 1) (incp 2)) (TNu 1); TBi AMP_AMP (n_ 0) (TNa (95 :: decimal 16))] [LV 2]). vm_compute. reflexivity.
Qed.
(* n && a[x / n] divides by zero *)
Theorem c19_early_fault_refuted : miscompiled (XBin AMP_AMP (v_ 0) (XIdx (v_ 1) (XBin SLASHC (v_ 2) (v_ 0)))) (mk [0; 16; 0] []).
Proof.
  apply (differs_ok _ _ [TBi PLUS (n_ 1) (TPa (TBi SLASHC (n_ 2) (n_ 0)))] []). vm_compute. reflexivity.
Qed.
(* p - &a[i] *)
Theorem c19_minus_addr_refuted : miscompiled (XBin MINUS (v_ 0) (XAddr (XIdx (v_ 1) (v_ 2)))) (mk [20; 16; 1] []).
Proof. apply (differs_ok _ _ [TBi PLUS (TBi MINUS (n_ 0) (n_ 1)) (n_ 2)] []). vm_compute. reflexivity. Qed.

(* texts the shell cannot parse: C gives - -x and ( *p) = 5 a value *)
Lemma unparsable e s v s' R W a l g1 ts : text0 e = [Ar a] -> cev moff0 zsz0 e s = Some (v, s', R, W) ->
  exp 64 a (st0 s) l g1 -> Lx l ts -> (forall t, ~ AG 13 ts t) -> miscompiled e s.
Proof.
  intros Et Ec X L NA. exists v, s', R, W. split; [exact Ec|]. intros g [Y _]. rewrite Et in Y.
  inversion Y as [| | |a' v' t' s2 s1 l' s3 Xa Xt]; subst. inversion Xa as [a' s2 l2 s4 us u w s5 X1 X2 X3 X4]; subst.
  destruct (proj1 (exp_ari_fun 64) _ _ _ _ X _ _ X1) as [<- <-]. rewrite <- (lexr_fun _ _ (Lx_lexr _ _ L) _ X2) in X3.
  exact (NA _ X3).
Qed.
(* an expression does not start with --, and = follows a name *)
Definition asgt (t : tok) : bool := match t with TOp op => existsb (Z.eqb op) assign_ops | _ => false end.
Fixpoint okt (p : tok) (ts : list tok) : bool :=
  match ts with
  | [] => true
  | t :: r => (negb (asgt t) || match p with TName _ => true | _ => false end)
              && negb (match t with TOp op => op =? MINUS_MINUS | _ => false end) && okt t r
  end.
Lemma okt_app ts : forall p us, okt p ts = true -> (forall q, okt q us = true) -> okt p (ts ++ us) = true.
Proof.
  induction ts as [|t ts IH]; intros p us H1 H2; [apply H2|]. cbn [app okt] in *. rewrite !andb_true_iff in *.
  destruct H1 as [[A B] C]. repeat split; auto.
Qed.
Lemma okt_cons op us : asgt (TOp op) = false -> (op =? MINUS_MINUS) = false -> (forall q, okt q us = true) -> forall q, okt q (TOp op :: us) = true.
Proof. intros H1 H2 H q. cbn [okt]. rewrite H1, H2, H. reflexivity. Qed.
Lemma AG_okt' k ts t : AG k ts t -> forall p, okt p ts = true.
Proof.
  induction 1; intros p.
  - cbn [okt]. reflexivity.
  - cbn [okt]. reflexivity.
  - apply okt_cons; auto. intros q. apply okt_app; auto.
  - apply okt_cons; auto; cbn in H; destruct H as [<- | [<- | [<- | [<- | []]]]]; reflexivity.
  - apply okt_app; auto. apply okt_cons; auto.
    + clear - H H0. do 10 (destruct k as [|k]; [cbn in H0; repeat (destruct H0 as [<- | H0]; [reflexivity|]); contradiction|]). lia.
    + clear - H H0. do 10 (destruct k as [|k]; [cbn in H0; repeat (destruct H0 as [<- | H0]; [reflexivity|]); contradiction|]). lia.
  - apply okt_app; auto. apply okt_cons; auto. intros q. apply okt_app; auto. apply okt_cons; auto.
  - cbn [okt asgt]. rewrite IHAG.
    cbn in H. repeat (destruct H as [<- | H]; [reflexivity|]). contradiction.
  - apply okt_app; auto. apply okt_cons; auto.
  - auto.
Qed.
Lemma okt_not ts : okt (TOp 0) ts = false -> forall t, ~ AG 13 ts t.
Proof. intros H t A. rewrite (AG_okt' _ _ _ A) in H. discriminate. Qed.
Lemma dec1 : Lx (decimal 16) [TNum 16]. Proof. apply Lx_dec. lia. Qed.
(* - -x is emitted as --x *)
Theorem c19_neg_neg_refuted : miscompiled (XUn MINUS (XUn MINUS (v_ 0))) (mk [5] []).
Proof.
  eapply (unparsable _ _ _ _ _ _ (chs (45 :: 45 :: vn0 0)) _ _ [TOp MINUS_MINUS; TName (vn0 0)]).
  - vm_compute. reflexivity.
  - vm_compute. reflexivity.
  - apply exp_chs.
  - intros r tr Sr Lr. cbn [app].
    apply (l_op [45; 45] MINUS_MINUS (vn0 0 ++ r) (TName (vn0 0) :: tr)); [vm_compute; tauto| |].
    + intros p' op' H [r' E]. clear - H E. cbn in H.
      repeat (destruct H as [H | H]; [inversion H; subst; cbn; try lia; discriminate E|]). contradiction.
    + apply (Lx_name (vn0 0)); auto. apply isid_ok. vm_compute. reflexivity.
  - apply okt_not. vm_compute. reflexivity.
Qed.

(* ( *p) = 5, with p = 16, is emitted as "16 = 5" *)
Theorem c19_paren_lvalue_refuted : miscompiled (XAsg EQ (XPar (XDeref (v_ 0))) (XInt 5)) (mk [16] []).
Proof.
  eapply (unparsable _ _ _ _ _ _ ([Pv (vn0 0)] ++ chs ([32] ++ op_chars EQ ++ [32]) ++ chs (decimal 5)) _ _ ([TNum 16] ++ TOp EQ :: [TNum 5])).
  - vm_compute. reflexivity.
  - vm_compute. reflexivity.
  - eapply exp_app; [|eapply exp_app; [apply exp_chs|apply exp_chs]].
    apply (e_pv 64 (vn0 0) [] _ []), e_nil.
  - apply Lx_bin; [vm_compute; tauto| |apply Lx_dec; lia].
    rewrite app_nil_r. replace (st0 (mk [16] []) (vn0 0)) with 16 by (vm_compute; reflexivity). exact dec1.
  - apply okt_not. vm_compute. reflexivity.
Qed.

(** ** The hypotheses can be met: a[i] = x * 3 + y++, i < 10 ? p->m1 && -y : x *)
Definition e0 : xe :=
  XComma (XAsg EQ (XIdx (v_ 0) (v_ 1)) (XBin PLUS (XBin STAR (v_ 2) (XInt 3)) (XPost true (v_ 3))))
    (XCond (XBin LT (v_ 1) (XInt 10)) (XBin AMP_AMP (XMem (v_ 4) 1) (XUn MINUS (v_ 3))) (v_ 2)).
Definition s0 : store := mk [16; 2; 7; 4; 20] [1; 2; 3; 4; 5; 6].
Lemma c19_instance : names_ok vn0 mn0 zn0 moff0 zsz0 /\ okx e0 = true /\
  exists v s' R W H V, cev moff0 zsz0 e0 s0 = Some (v, s', R, W) /\ hst moff0 zsz0 e0 s0 = Some (H, V) /\
    cst mn0 zn0 moff0 zsz0 (st0 s0) /\ agree vn0 (R ++ H) (st0 s0) s0 /\ v = 1 /\ s' (LC 18) = 25 /\ s' (LV 3) = 5.
Proof.
  split; [exact names0_ok|]. split; [reflexivity|].
  destruct (cev moff0 zsz0 e0 s0) as [[[[v s'] R] W]|] eqn:Ec; [|exfalso; vm_compute in Ec; discriminate].
  destruct (hst moff0 zsz0 e0 s0) as [[H V]|] eqn:Eh; [|exfalso; vm_compute in Eh; discriminate].
  exists v, s', R, W, H, V. split; [reflexivity|]. split; [reflexivity|]. split; [apply st0_cst|].
  assert (P : forallb (fun l => match l with LV _ => true | LC a => 0 <=? a end) (R ++ H) = true).
  { vm_compute in Ec, Eh. inversion Ec; inversion Eh; subst. reflexivity. }
  split.
  - intros l Hl. apply st0_agree. rewrite forallb_forall in P. specialize (P l Hl). destruct l; [auto|apply Z.leb_le; auto].
  - vm_compute in Ec. inversion Ec; subst. split; [reflexivity|]. split; reflexivity.
Qed.
