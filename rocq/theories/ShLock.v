(** * Two executions of the same statements, side by side

    The same C statements run over two kinds of states.  If the simple statements, returns, conditions
    and switch values keep the states related, then so does every statement; the first execution may
    end the program in a state that [bad] describes, and then nothing is said about the second. *)
From Coq Require Import ZArith List Lia Bool.
From Verif Require Import ShStmt ShProg.
Import ListNotations.

Section Lock.
Variables (A T V P S1 S2 : Type).
Variables (pa pr : A -> bool) (pt : T -> bool) (pv : V -> bool) (kval : P -> Z).
Variables (act1 : A -> S1 -> ares S1) (act2 : A -> S2 -> ares S2).
Variables (tst1 : T -> S1 -> tres S1) (tst2 : T -> S2 -> tres S2).
Variables (val1 : V -> S1 -> vres S1) (val2 : V -> S2 -> vres S2).
Variables (RN RR RH : S1 -> S2 -> Prop) (bad : S1 -> Prop).

Definition halts (x : S1) (y : option S2) : Prop := bad x \/ exists z, y = Some z /\ RH x z.
Definition arel (R : S1 -> S2 -> Prop) (a : ares S1) (b : ares S2) : Prop :=
  match a with
  | Norm x => exists y, b = Norm y /\ R x y
  | Halt x => bad x \/ exists y, b = Halt y /\ RH x y
  end.
Definition trel (a : tres S1) (b : tres S2) : Prop :=
  match a with
  | TVal v x => exists y, b = TVal v y /\ RN x y
  | THalt x => bad x \/ exists y, b = THalt y /\ RH x y
  end.
Definition vrel (a : vres S1) (b : vres S2) : Prop :=
  match a with
  | VVal v x => exists y, b = VVal v y /\ RN x y
  | VHalt x => bad x \/ exists y, b = VHalt y /\ RH x y
  end.
Definition crel (a : option (cout S1)) (b : option (cout S2)) : Prop :=
  match a with
  | None => b = None
  | Some (CN x) => exists y, b = Some (CN y) /\ RN x y
  | Some (CB x) => exists y, b = Some (CB y) /\ RN x y
  | Some (CC x) => exists y, b = Some (CC y) /\ RN x y
  | Some (CR x) => exists y, b = Some (CR y) /\ RR x y
  | Some (CH x) => bad x \/ exists y, b = Some (CH y) /\ RH x y
  end.
Hypothesis Hact : forall a x y, pa a = true -> RN x y -> arel RN (act1 a x) (act2 a y).
Hypothesis Hret : forall a x y, pr a = true -> RN x y -> arel RR (act1 a x) (act2 a y).
Hypothesis Htst : forall t x y, pt t = true -> RN x y -> trel (tst1 t x) (tst2 t y).
Hypothesis Hval : forall v x y, pv v = true -> RN x y -> vrel (val1 v x) (val2 v y).

Notation ev1 := (ceval A T V P S1 act1 tst1 val1 kval). Notation ev2 := (ceval A T V P S2 act2 tst2 val2 kval).
Notation evs1 := (cevals A T V P S1 act1 tst1 val1 kval). Notation evs2 := (cevals A T V P S2 act2 tst2 val2 kval).
Notation jm1 := (cjump A T V P S1 act1 tst1 val1 kval). Notation jm2 := (cjump A T V P S2 act2 tst2 val2 kval).

Ltac rel H := destruct H as [?y [-> ?]].
Ltac hlt H := destruct H as [?|[?y [-> ?]]]; [left; assumption|right; eexists; split; [reflexivity|assumption]].

Lemma cloop_rel t e f1 f2 : opt pt t = true -> opt pa e = true ->
  (forall x y, RN x y -> crel (f1 x) (f2 y)) ->
  forall n x y, RN x y -> crel (cloop A T S1 act1 tst1 t f1 e n x) (cloop A T S2 act2 tst2 t f2 e n y).
Proof.
  intros Ht He Hf. induction n as [|n IH]; intros x y Hxy; [reflexivity|]. cbn [cloop].
  assert (NX : forall x2 y2, RN x2 y2 -> crel
    (match e with None => cloop A T S1 act1 tst1 t f1 e n x2
     | Some a => match act1 a x2 with Norm s3 => cloop A T S1 act1 tst1 t f1 e n s3 | Halt s3 => Some (CH s3) end end)
    (match e with None => cloop A T S2 act2 tst2 t f2 e n y2
     | Some a => match act2 a y2 with Norm s3 => cloop A T S2 act2 tst2 t f2 e n s3 | Halt s3 => Some (CH s3) end end)).
  { intros x2 y2 H. destruct e as [a|]; [|apply IH; exact H].
    pose proof (Hact a x2 y2 He H) as K. destruct (act1 a x2) as [x3|x3]; cbn [arel] in K.
    - rel K. apply IH. assumption.
    - hlt K. }
  assert (GO : forall x1 y1, RN x1 y1 -> crel
    (match f1 x1 with
     | None => None
     | Some (CN s2) | Some (CC s2) =>
         match e with None => cloop A T S1 act1 tst1 t f1 e n s2
         | Some a => match act1 a s2 with Norm s3 => cloop A T S1 act1 tst1 t f1 e n s3 | Halt s3 => Some (CH s3) end end
     | Some (CB s2) => Some (CN s2) | Some (CR s2) => Some (CR s2) | Some (CH s2) => Some (CH s2) end)
    (match f2 y1 with
     | None => None
     | Some (CN s2) | Some (CC s2) =>
         match e with None => cloop A T S2 act2 tst2 t f2 e n s2
         | Some a => match act2 a s2 with Norm s3 => cloop A T S2 act2 tst2 t f2 e n s3 | Halt s3 => Some (CH s3) end end
     | Some (CB s2) => Some (CN s2) | Some (CR s2) => Some (CR s2) | Some (CH s2) => Some (CH s2) end)).
  { intros x1 y1 H. pose proof (Hf x1 y1 H) as K. destruct (f1 x1) as [[x2|x2|x2|x2|x2]|]; cbn [crel] in K.
    - rel K. apply NX. assumption.
    - rel K. cbn [crel]. eauto.
    - rel K. apply NX. assumption.
    - rel K. cbn [crel]. eauto.
    - hlt K.
    - rewrite K. reflexivity. }
  destruct t as [t|]; [|apply GO; exact Hxy].
  pose proof (Htst t x y Ht Hxy) as K. destruct (tst1 t x) as [b x1|x1]; cbn [trel] in K.
  - rel K. destruct b; [apply GO; assumption|cbn [crel]; eauto].
  - hlt K.
Qed.
Lemma dloop_rel t f1 f2 : pt t = true -> (forall x y, RN x y -> crel (f1 x) (f2 y)) ->
  forall n x y, RN x y -> crel (dloop T S1 tst1 f1 t n x) (dloop T S2 tst2 f2 t n y).
Proof.
  intros Ht Hf. induction n as [|n IH]; intros x y Hxy; [reflexivity|]. cbn [dloop].
  assert (NX : forall x2 y2, RN x2 y2 -> crel
    (match tst1 t x2 with THalt s1 => Some (CH s1) | TVal false s1 => Some (CN s1) | TVal true s1 => dloop T S1 tst1 f1 t n s1 end)
    (match tst2 t y2 with THalt s1 => Some (CH s1) | TVal false s1 => Some (CN s1) | TVal true s1 => dloop T S2 tst2 f2 t n s1 end)).
  { intros x2 y2 H. pose proof (Htst t x2 y2 Ht H) as K. destruct (tst1 t x2) as [b x1|x1]; cbn [trel] in K.
    - rel K. destruct b; [apply IH; assumption|cbn [crel]; eauto].
    - hlt K. }
  pose proof (Hf x y Hxy) as K. destruct (f1 x) as [[x2|x2|x2|x2|x2]|]; cbn [crel] in K.
  - rel K. apply NX. assumption.
  - rel K. cbn [crel]. eauto.
  - rel K. apply NX. assumption.
  - rel K. cbn [crel]. eauto.
  - hlt K.
  - rewrite K. reflexivity.
Qed.

Lemma switch_eq S (act : A -> S -> ares S) (tst : T -> S -> tres S) (val : V -> S -> vres S) F v l s :
  ceval A T V P S act tst val kval F (SSwitch v l) s =
  match val v s with
  | VHalt s1 => Some (CH s1)
  | VVal z s1 =>
      match cjump A T V P S act tst val kval F
              (match from A T V P (has_case P kval z) l with Some _ => has_case P kval z | None => has_default P end) l s1 with
      | Some (CB s2) => Some (CN s2)
      | o => o
      end
  end.
Proof. reflexivity. Qed.

Theorem lockstep :
  (forall c, every A T V P pa pr pt pv c = true -> forall n x y, RN x y -> crel (ev1 n c x) (ev2 n c y)) /\
  (forall l, everys A T V P pa pr pt pv l = true ->
     (forall n x y, RN x y -> crel (evs1 n l x) (evs2 n l y)) /\
     (forall n f x y, RN x y -> crel (jm1 n f l x) (jm2 n f l y))).
Proof.
  apply stmt_stmts_ind; cbn [every everys].
  - intros _ n x y H. cbn. eauto.
  - intros a Ha n x y H. cbn [ceval]. pose proof (Hact a x y Ha H) as K.
    destruct (act1 a x) as [x1|x1]; cbn [arel] in K; [rel K; cbn; eauto|hlt K].
  - intros t a IHa b IHb E n x y H. rewrite !andb_true_iff in E. destruct E as [[E1 E2] E3]. cbn [ceval].
    pose proof (Htst t x y E1 H) as K. destruct (tst1 t x) as [v x1|x1]; cbn [trel] in K; [rel K|hlt K].
    destruct v; [apply IHa|apply IHb]; assumption.
  - intros t b IHb E n x y H. rewrite !andb_true_iff in E. destruct E as [E1 E2]. cbn [ceval].
    apply cloop_rel; [exact E1|reflexivity| |exact H]. intros. apply IHb; assumption.
  - intros b IHb t E n x y H. rewrite !andb_true_iff in E. destruct E as [E1 E2]. cbn [ceval].
    apply dloop_rel; [exact E1| |exact H]. intros. apply IHb; assumption.
  - intros i t e b IHb E n x y H. rewrite !andb_true_iff in E. destruct E as [[[E1 E2] E3] E4]. cbn [ceval].
    destruct i as [i|]; cbn [to_int].
    + pose proof (Hact i x y E1 H) as K. destruct (act1 i x) as [x1|x1]; cbn [arel] in K; [rel K|hlt K].
      apply cloop_rel; [exact E2|exact E3| |assumption]. intros. apply IHb; assumption.
    + apply cloop_rel; [exact E2|exact E3| |assumption]. intros. apply IHb; assumption.
  - intros v l IHl E n x y H. rewrite !andb_true_iff in E. destruct E as [E1 E2]. destruct (IHl E2) as [_ J]. rewrite !switch_eq.
    pose proof (Hval v x y E1 H) as K. destruct (val1 v x) as [z x1|x1]; cbn [vrel] in K; [rel K|hlt K].
    match goal with |- context [jm1 n ?f l x1] => pose proof (J n f x1 y0 ltac:(assumption)) as K2; destruct (jm1 n f l x1) as [[x2|x2|x2|x2|x2]|] end;
      cbn [crel] in K2.
    + rel K2. cbn. eauto.
    + rel K2. cbn. eauto.
    + rel K2. cbn. eauto.
    + rel K2. cbn. eauto.
    + hlt K2.
    + rewrite K2. reflexivity.
  - intros _ n x y H. cbn. eauto.
  - intros _ n x y H. cbn. eauto.
  - intros a Ha n x y H. cbn [ceval]. pose proof (Hret a x y Ha H) as K.
    destruct (act1 a x) as [x1|x1]; cbn [arel] in K; [rel K; cbn; eauto|hlt K].
  - intros l IHl E n x y H. cbn [ceval]. apply IHl; assumption.
  - intros c IHc E n x y H. cbn [ceval]. apply IHc; assumption.
  - intros _. split; intros; cbn; eauto.
  - intros ls c IHc r IHr E. rewrite !andb_true_iff in E. destruct E as [E1 E2]. destruct (IHr E2) as [I1 I2].
    assert (Q : forall n x y, RN x y -> crel
      (match ev1 n c x with Some (CN s1) => evs1 n r s1 | o => o end) (match ev2 n c y with Some (CN s1) => evs2 n r s1 | o => o end)).
    { intros n x y H. pose proof (IHc E1 n x y H) as K. destruct (ev1 n c x) as [[x2|x2|x2|x2|x2]|]; cbn [crel] in K.
      - rel K. apply I1. assumption.
      - rel K. cbn. eauto.
      - rel K. cbn. eauto.
      - rel K. cbn. eauto.
      - hlt K.
      - rewrite K. reflexivity. }
    split; [exact Q|]. intros n f x y H. cbn [cjump]. destruct (f ls); [apply Q; exact H|apply I2; exact H].
Qed.
End Lock.
