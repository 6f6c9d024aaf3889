(** * C27: calls taken out of an expression keep the semantics of C

    Specification: the nondeterministic small-step semantics of C expressions [star] of ShCall (operands
    of ordinary operators and arguments are evaluated in any interleaving, as ISO C 6.5 allows;
    && || ?: and the comma are sequenced), and the POSIX grammar and meaning of shell lists
    ([gclist], [rclist]).  The state [St], the variables, the operators and the functions are
    arbitrary: a state may record the trace of the calls, so reaching the same state means performing
    the same calls, each once, with the same arguments. *)
From Coq Require Import ZArith List Lia Bool.
From Verif Require Import ShCall ShCallProof.
Import ListNotations.

Section C27.
Variables L X U O R Fn St : Type.
Variable upure : U -> bool.
Variable opure : O -> bool.
Variable rd : L -> St -> Z.
Variable rdv : X -> St -> Z.
Variable setx : X -> Z -> St -> St.
Variable un : U -> Z -> St -> Z * St.
Variable bn : O -> Z -> Z -> St -> Z * St.
Variable cmp : R -> Z -> Z -> bool.
Variable call : Fn -> list Z -> St -> Z -> St -> Prop.

Record world : Prop := {
  w_get_set : forall x v s, rdv x (setx x v s) = v;
  w_un_pure : forall u v s, upure u = true -> snd (un u v s) = s;
  w_bn_pure : forall o v w s, opure o = true -> snd (bn o v w s) = s
}.

(* a condition: the shell reads the emitted list in one way, and every run of it is a C evaluation of
   the condition: it ends in the same state, and its exit status is success iff the C value is not 0 *)
Theorem c27_test : world -> forall e g toks, test_ok L X U O R Fn upure opure false e = true ->
  comp_test L X U O R Fn e g = Some toks ->
  exists c, gclist L X U O R Fn toks c /\ (forall c', gclist L X U O R Fn toks c' -> c' = c) /\
  forall t s b t' s', rclist L X U O R Fn St rd rdv setx un bn cmp call c (t, s) b (t', s') ->
    exists v, star L X U O R Fn St rd rdv setx un bn cmp call e s (EVl v) s' /\ (b = true <-> v <> 0%Z).
Proof.
  intros W e g toks K E.
  destruct (comp_test_right L X U O R Fn St upure opure rd rdv setx un bn cmp call (w_get_set W) (w_un_pure W) (w_bn_pure W) e g toks K E) as [c [G H]].
  exists c. split; [exact G|]. split; [intros c' G'; eapply clist_unique; eauto|].
  intros t s b t' s' HR. destruct (H _ _ _ _ _ HR) as [v [S1 N]]. exists v. split; [exact S1|]. rewrite <- N. unfold nz.
  destruct (Z.eqb_spec v 0); cbn; split; congruence.
Qed.
(* a value: the calls one after the other, then the arithmetic of what is left *)
Theorem c27_value : world -> forall e g cs r, value_ok L X U O R Fn upure opure e = true ->
  comp_value L X U O R Fn e g = Some (cs, r) ->
  forall t s t' s' v s'', rcalls L X U O R Fn St rd rdv setx un bn cmp call cs (t, s) (t', s') ->
    reval L X U O R Fn St rd rdv setx un bn cmp r t' s' = (v, s'') ->
    star L X U O R Fn St rd rdv setx un bn cmp call e s (EVl v) s''.
Proof. intros W e g cs r K E. exact (comp_value_right L X U O R Fn St upure opure rd rdv setx un bn cmp call (w_get_set W) (w_un_pure W) (w_bn_pure W) e g cs r K E). Qed.
(* if the functions return, the emitted code runs to its end *)
Theorem c27_runs : (forall f vs s, exists v s', call f vs s v s') ->
  (forall c p, exists b q, rclist L X U O R Fn St rd rdv setx un bn cmp call c p b q) /\
  (forall cs p, exists q, rcalls L X U O R Fn St rd rdv setx un bn cmp call cs p q).
Proof.
  intros HR. split.
  - intros c p. exact (clist_runs L X U O R Fn St rd rdv setx un bn cmp call HR c p).
  - intros cs p. exact (calls_run L X U O R Fn St rd rdv setx un bn cmp call HR cs p).
Qed.
End C27.

(** ** An instance: two variables, a trace of the calls *)
Definition State := (Z * Z * list (nat * list Z))%type.      (* x (true), y (false), calls made, last first *)
Definition rdv0 (x : bool) (s : State) : Z := let '(a, b, _) := s in if x then a else b.
Definition setx0 (x : bool) (v : Z) (s : State) : State := let '(a, b, l) := s in if x then (v, b, l) else (a, v, l).
Definition rd0 (l : Empty_set) (s : State) : Z := match l with end.
(* unary minus (true, no effect); x++ on the variable x (false) *)
Definition un0 (u : bool) (v : Z) (s : State) : Z * State :=
  if u then ((- v)%Z, s) else let '(a, b, l) := s in (v, ((a + 1)%Z, b, l)).
Definition bn0 (o : unit) (v w : Z) (s : State) : Z * State := ((v + w)%Z, s).
Definition cmp0 (r : unit) (v w : Z) : bool := (v <? w)%Z.
(* function number f returns f plus its arguments; function 3 also sets x to 7 *)
Definition callf (f : nat) (vs : list Z) (s : State) : Z * State :=
  let '(a, b, l) := s in
  (fold_right Z.add (Z.of_nat f) vs, (if Nat.eqb f 3 then 7%Z else a, b, (f, vs) :: l)).
Definition call0 (f : nat) (vs : list Z) (s : State) (v : Z) (s' : State) : Prop := callf f vs s = (v, s').
Definition up0 (u : bool) : bool := u.
Definition op0 (o : unit) : bool := true.
Lemma world0 : world bool bool unit State up0 op0 rdv0 setx0 un0 bn0.
Proof.
  split.
  - intros [] v [[a b] l]; reflexivity.
  - intros [] v [[a b] l] H; [reflexivity|discriminate].
  - intros o v w s _. reflexivity.
Qed.
Lemma returns0 : forall f vs s, exists v s', call0 f vs s v s'.
Proof. intros f vs s. unfold call0. destruct (callf f vs s) as [v s']. eauto. Qed.
Notation e0 := (ex Empty_set bool bool unit unit nat).
Notation es0 := (exs Empty_set bool bool unit unit nat).
Notation rx0 := (rx Empty_set bool bool unit unit nat).
Notation clist0 := (clist Empty_set bool bool unit unit nat).
Definition cT := comp_test Empty_set bool bool unit unit nat.
Definition cV := comp_value Empty_set bool bool unit unit nat.
Definition gr := gclist Empty_set bool bool unit unit nat.
Definition run0 := rclist Empty_set bool bool unit unit nat State rd0 rdv0 setx0 un0 bn0 cmp0 call0.
Definition calls0 := rcalls Empty_set bool bool unit unit nat State rd0 rdv0 setx0 un0 bn0 cmp0 call0.
Definition val0 := reval Empty_set bool bool unit unit nat State rd0 rdv0 setx0 un0 bn0 cmp0.
Definition C0 := star Empty_set bool bool unit unit nat State rd0 rdv0 setx0 un0 bn0 cmp0 call0.
Definition f0 (n : nat) : e0 := ECl n Enil.
Definition f1 (n : nat) (a : e0) : e0 := ECl n (Econs a Enil).
Definition plus (a b : e0) : e0 := EBn tt a b.
Definition lt (a b : e0) : e0 := ECp tt a b.
Definition x_ : e0 := EVr true.
Definition y_ : e0 := EVr false.

(* (f1(f2(x) + 1) + f4() < x++) && (((x = f5(y)) || f6() < 3) && !... ) *)
Definition sample : e0 :=
  ELg true (lt (plus (f1 1 (plus (f1 2 x_) (EVl 1))) (f0 4)) (EUn false x_))
    (EPa (ELg false (EAs true (f1 5 y_)) (ELg true (lt (f0 6) (EVl 3)) (f1 7 (ECd x_ y_ (EVl 2)))))).
Example c27_instance : test_ok Empty_set bool bool unit unit nat up0 op0 false sample = true /\
  (exists toks, cT sample 0 = Some toks /\ List.length toks = 37) /\
  value_ok Empty_set bool bool unit unit nat up0 op0 (plus (f1 1 (f1 2 (plus x_ (f0 4)))) (EUn false y_)) = true /\
  (exists cs r, cV (plus (f1 1 (f1 2 (plus x_ (f0 4)))) (EUn false y_)) 0 = Some (cs, r) /\ cs <> Cnil).
Proof.
  split; [reflexivity|]. split; [eexists; split; [vm_compute; reflexivity|reflexivity]|].
  split; [reflexivity|]. eexists. eexists. split; [vm_compute; reflexivity|discriminate].
Qed.

(** ** All C evaluations of an expression, computed *)
Definition lft {A B : Type} (f : A -> B) (l : list (A * State)) : list (B * State) := map (fun p => (f (fst p), snd p)) l.
Fixpoint nexts (e : e0) (s : State) {struct e} : list (e0 * State) :=
  match e with
  | EVl _ => []
  | ELf l => match l with end
  | EVr x => [(EVl (rdv0 x s), s)]
  | EUn u a => (match a with EVl v => let (v', s') := un0 u v s in [(EVl v', s')] | _ => [] end) ++ lft (EUn u) (nexts a s)
  | EBn o a b => (match a, b with EVl v, EVl w => let (v', s') := bn0 o v w s in [(EVl v', s')] | _, _ => [] end)
                 ++ lft (fun a' => EBn o a' b) (nexts a s) ++ lft (fun b' => EBn o a b') (nexts b s)
  | ECp o a b => (match a, b with EVl v, EVl w => [(EVl (b2z (cmp0 o v w)), s)] | _, _ => [] end)
                 ++ lft (fun a' => ECp o a' b) (nexts a s) ++ lft (fun b' => ECp o a b') (nexts b s)
  | ECm a b => (match a with EVl _ => [(b, s)] | _ => [] end) ++ lft (fun a' => ECm a' b) (nexts a s)
  | EAs x a => (match a with EVl v => [(EVl v, setx0 x v s)] | _ => [] end) ++ lft (EAs x) (nexts a s)
  | ELg o a b => (match a with EVl v => if Bool.eqb (nz v) o then [(ECd b (EVl 1) (EVl 0), s)] else [(EVl (b2z (negb o)), s)] | _ => [] end)
                 ++ lft (fun a' => ELg o a' b) (nexts a s)
  | ECd c a b => (match c with EVl v => [(if nz v then a else b, s)] | _ => [] end) ++ lft (fun c' => ECd c' a b) (nexts c s)
  | ECa a => (match a with EVl v => [(EVl v, s)] | _ => [] end) ++ lft ECa (nexts a s)
  | EPl a => (match a with EVl v => [(EVl v, s)] | _ => [] end) ++ lft EPl (nexts a s)
  | EPa a => (match a with EVl v => [(EVl v, s)] | _ => [] end) ++ lft EPa (nexts a s)
  | ECl f l => (match values _ _ _ _ _ _ l with Some vs => let (v', s') := callf f vs s in [(EVl v', s')] | None => [] end)
               ++ lft (ECl f) (nextss l s)
  end
with nextss (l : es0) (s : State) {struct l} : list (es0 * State) :=
  match l with
  | Enil => []
  | Econs a l => lft (fun a' => Econs a' l) (nexts a s) ++ lft (fun l' => Econs a l') (nextss l s)
  end.
Fixpoint all_runs (n : nat) (e : e0) (s : State) : option (list (Z * State)) :=
  match e with
  | EVl v => Some [(v, s)]
  | _ => match n with
         | O => None
         | S n => fold_right (fun p acc => match all_runs n (fst p) (snd p), acc with Some l, Some m => Some (l ++ m) | _, _ => None end)
                    (Some []) (nexts e s)
         end
  end.
Scheme step_i2 := Induction for step Sort Prop with steps_i2 := Induction for steps1 Sort Prop.
Combined Scheme step_steps_ind from step_i2, steps_i2.
Lemma in_lft {A B : Type} (f : A -> B) l a s : In (a, s) l -> In (f a, s) (lft f l).
Proof. intros H. unfold lft. apply in_map_iff. exists (a, s). split; [reflexivity|exact H]. Qed.
Lemma nexts_all :
  (forall e s e' s', step Empty_set bool bool unit unit nat State rd0 rdv0 setx0 un0 bn0 cmp0 call0 e s e' s' -> In (e', s') (nexts e s)) /\
  (forall e s e' s', steps1 Empty_set bool bool unit unit nat State rd0 rdv0 setx0 un0 bn0 cmp0 call0 e s e' s' -> In (e', s') (nextss e s)).
Proof.
  assert (HN : forall f l s, nexts (ECl f l) s = (match values _ _ _ _ _ _ l with Some vs => let (v', s') := callf f vs s in [(EVl v', s')] | None => [] end)
               ++ lft (ECl f) (nextss l s)) by reflexivity.
  assert (HC : forall a l s, nextss (Econs a l) s = lft (fun a' => Econs a' l) (nexts a s) ++ lft (fun l' => Econs a l') (nextss l s)) by reflexivity.
  apply (step_steps_ind Empty_set bool bool unit unit nat State rd0 rdv0 setx0 un0 bn0 cmp0 call0);
    intros; rewrite ?HN, ?HC; cbn [nexts].
  - destruct l.
  - left. reflexivity.
  - apply in_or_app. left. rewrite e. left. reflexivity.
  - apply in_or_app. left. rewrite e. left. reflexivity.
  - left. reflexivity.
  - left. reflexivity.
  - left. reflexivity.
  - subst o. rewrite eqb_reflx. left. reflexivity.
  - rewrite e. destruct o; left; reflexivity.
  - left. reflexivity.
  - left. reflexivity.
  - left. reflexivity.
  - left. reflexivity.
  - apply in_or_app. left. rewrite e. unfold call0 in c. rewrite c. left. reflexivity.
  - apply in_or_app. right. apply in_lft; assumption.
  - apply in_or_app. right. apply in_or_app. left. apply (in_lft (fun a' => EBn o a' b)); assumption.
  - apply in_or_app. right. apply in_or_app. right. apply (in_lft (fun b' => EBn o a b')); assumption.
  - apply in_or_app. right. apply in_or_app. left. apply (in_lft (fun a' => ECp o a' b)); assumption.
  - apply in_or_app. right. apply in_or_app. right. apply (in_lft (fun b' => ECp o a b')); assumption.
  - apply in_or_app. right. apply (in_lft (fun a' => ECm a' b)); assumption.
  - apply in_or_app. right. apply in_lft; assumption.
  - apply in_or_app. right. apply (in_lft (fun a' => ELg o a' b)); assumption.
  - apply in_or_app. right. apply (in_lft (fun c' => ECd c' a b)); assumption.
  - apply in_or_app. right. apply in_lft; assumption.
  - apply in_or_app. right. apply in_lft; assumption.
  - apply in_or_app. right. apply in_lft; assumption.
  - apply in_or_app. right. apply in_lft; assumption.
  - apply in_or_app. left. apply (in_lft (fun a' => Econs a' l)); assumption.
  - apply in_or_app. right. apply (in_lft (fun l' => Econs a l')); assumption.
Qed.
Lemma all_runs_in e s e' s' : C0 e s e' s' -> forall v n l, e' = EVl v -> all_runs n e s = Some l -> In (v, s') l.
Proof.
  induction 1 as [e s|e s e1 s1 e2 s2 H H0 IH]; intros v n l E A.
  - subst e. destruct n; cbn in A; injection A as <-; left; reflexivity.
  - pose proof (proj1 nexts_all _ _ _ _ H) as I0.
    assert (A' : exists n', n = S n' /\ fold_right (fun p acc => match all_runs n' (fst p) (snd p), acc with Some l, Some m => Some (l ++ m) | _, _ => None end)
                    (Some []) (nexts e s) = Some l).
    { destruct n as [|n']; [destruct e; try discriminate A; inversion H|]. exists n'. split; [reflexivity|].
      destruct e; try exact A. inversion H. }
    destruct A' as [n' [-> A']]. clear A. revert l A' I0. generalize (nexts e s) as ns. induction ns as [|[e3 s3] ns IHn]; intros l A I0; [destruct I0|].
    cbn [fold_right fst snd] in A. destruct (all_runs n' e3 s3) as [l1|] eqn:E1; [|discriminate].
    destruct (fold_right _ (Some []) ns) as [l2|] eqn:E2; [|discriminate]. injection A as <-. apply in_or_app.
    destruct I0 as [I0|I0].
    + left. injection I0 as -> ->. eapply IH; eauto.
    + right. eapply IHn; eauto.
Qed.

(** ** The exceptions: the emitted code runs, and no C evaluation agrees with it *)
Definition t00 : temps := fun _ => 0%Z.
Definition s00 : State := (0%Z, 1%Z, []).
Definition wrong_test (e : e0) : Prop := exists toks c b t' s', cT e 0 = Some toks /\ gr toks c /\ run0 c (t00, s00) b (t', s') /\
  ~ exists v, C0 e s00 (EVl v) s' /\ (b = true <-> v <> 0%Z).
Definition wrong_value (e : e0) : Prop := exists cs r t' s' v s'', cV e 0 = Some (cs, r) /\ calls0 cs (t00, s00) (t', s') /\
  val0 r t' s' = (v, s'') /\ ~ C0 e s00 (EVl v) s''.
Ltac no_run := match goal with |- ~ C0 ?e ?s _ _ => let H := fresh in let l := eval vm_compute in (all_runs 30 e s) in
   intros H; assert (K : all_runs 30 e s = l) by (vm_compute; reflexivity);
   pose proof (all_runs_in _ _ _ _ H _ _ _ eq_refl K) as Q; cbn in Q; clear -Q; intuition congruence end.
Ltac no_test := match goal with |- ~ exists v, C0 ?e ?s _ _ /\ _ => let H := fresh in let H2 := fresh in let v := fresh in
   let l := eval vm_compute in (all_runs 30 e s) in
   intros [v [H H2]]; assert (K : all_runs 30 e s = l) by (vm_compute; reflexivity);
   pose proof (all_runs_in _ _ _ _ H _ _ _ eq_refl K) as Q; cbn in Q; clear -Q H2; intuition congruence end.
Lemma R_test2 r t s v s1 b : val0 r t s = (v, s1) -> nz v = b ->
  rsimple Empty_set bool bool unit unit nat State rd0 rdv0 setx0 un0 bn0 cmp0 call0 (STest r) (t, s) b (t, s1).
Proof. intros H <-. apply R_test. exact H. Qed.
(* (f() + (x ? 1 : 2)) && g(): the call f() is lost *)
Definition lost_cond : e0 := ELg true (plus (f0 1) (ECd x_ (EVl 1) (EVl 2))) (f0 2).
Theorem c27_call_before_cond_refuted : wrong_test lost_cond.
Proof.
  eexists. eexists. eexists. eexists. eexists. split; [vm_compute; reflexivity|].
  split; [eapply G_last; eapply (G_log _ _ _ _ _ _ [_]); [eapply G_one; eapply G_simple|]; eapply (G_group _ _ _ _ _ _ [_; _; _]); eapply (G_seq _ _ _ _ _ _ [_] _ [_]); [eapply G_last|]; eapply G_one; eapply G_simple|].
  split.
  - apply R_last. eapply R_run; [apply R_one; apply R_simple; eapply R_test2; vm_compute; reflexivity|]. apply R_group.
    eapply R_seq; [apply R_last; apply R_one; apply R_simple; eapply R_calltm with (b := true); reflexivity|].
    apply R_one; apply R_simple; eapply R_test2; vm_compute; reflexivity.
  - no_test.
Qed.
(* (int)f() && g(): the call f() is lost *)
Definition lost_cast : e0 := ELg true (ECa (f0 1)) (f0 2).
Theorem c27_call_under_cast_refuted : wrong_test lost_cast.
Proof.
  eexists. eexists. eexists. eexists. eexists. split; [vm_compute; reflexivity|].
  split; [eapply G_last; eapply (G_log _ _ _ _ _ _ [_]); [eapply G_one; eapply G_simple|]; eapply (G_group _ _ _ _ _ _ [_; _; _]); eapply (G_seq _ _ _ _ _ _ [_] _ [_]); [eapply G_last|]; eapply G_one; eapply G_simple|].
  split.
  - apply R_last. eapply R_skip with (o := true). apply R_one; apply R_simple; eapply R_test2; vm_compute; reflexivity.
  - no_test.
Qed.
(* x && +(x || y), with x = 0 and y = 1: the grouping is lost *)
Definition lost_group : e0 := ELg true x_ (EPl (EPa (ELg false x_ y_))).
Theorem c27_plus_around_or_refuted : wrong_test lost_group.
Proof.
  eexists. eexists. eexists. eexists. eexists. split; [vm_compute; reflexivity|].
  split; [eapply G_last; eapply (G_log _ _ _ _ _ _ [_; _; _]); [eapply (G_log _ _ _ _ _ _ [_]); [eapply G_one; eapply G_simple|eapply G_simple]|eapply G_simple]|].
  split.
  - apply R_last. eapply R_run with (o := false);
      [eapply R_skip with (o := true); apply R_one; apply R_simple; eapply R_test2; vm_compute; reflexivity|].
    apply R_simple; eapply R_test2; vm_compute; reflexivity.
  - no_test.
Qed.
(* (x = 5, f(x)): the call comes before the assignment *)
Definition early_call : e0 := ECm (EAs true (EVl 5)) (f1 1 x_).
Theorem c27_comma_refuted : wrong_value early_call.
Proof.
  eexists. eexists. eexists. eexists. eexists. eexists. split; [vm_compute; reflexivity|].
  split; [eapply R_ccons; [eapply R_calltm with (b := true); reflexivity|apply R_cnil]|].
  split; [vm_compute; reflexivity|]. no_run.
Qed.
(* (x = f()) + g() where g changes x: x is read after g() *)
Definition late_read : e0 := plus (EAs true (f0 1)) (f0 3).
Theorem c27_assigned_call_refuted : wrong_value late_read.
Proof.
  eexists. eexists. eexists. eexists. eexists. eexists. split; [vm_compute; reflexivity|].
  split; [eapply R_ccons; [eapply R_callvr with (b := true); reflexivity|];
          eapply R_ccons; [eapply R_calltm with (b := true); reflexivity|apply R_cnil]|].
  split; [vm_compute; reflexivity|]. no_run.
Qed.
(* y ? f() + (x ? 1 : 2) : 0 is accepted, and f() is lost *)
Definition lost_in_cond : e0 := ECd y_ (plus (f0 1) (ECd x_ (EVl 1) (EVl 2))) (EVl 0).
Theorem c27_cond_in_cond_refuted : wrong_value lost_in_cond.
Proof.
  eexists. eexists. eexists. eexists. eexists. eexists. split; [vm_compute; reflexivity|].
  split; [apply R_cnil|]. split; [vm_compute; reflexivity|]. no_run.
Qed.
