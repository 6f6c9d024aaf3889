(** * C28: loops, switch, break, continue and return keep their C meaning in shell code *)
From Coq Require Import ZArith List Lia Bool.
From Verif Require Import ShStmt ShStmtProof.
Import ListNotations.

(** ** The shell's grammar reads a list of lines in one way only *)
Section Un.
Variables T V P K : Type.
Notation ln := (line T V P K).
Notation prog := (@prog T V P K).
Notation tails := (@tails T V P K).
Notation clauses := (@clauses T V P K).
Definition closer (x : ln) : Prop :=
  match x with LDone | LFi | LElif _ | LElse | LDsemi | LEsac | LPat _ => True | _ => False end.
Definition closed (r : list ln) : Prop := match r with [] => True | x :: _ => closer x end.
Definition stops (r : list ln) : Prop := match r with [] => True | LPat _ :: _ => False | _ => True end.

Lemma tails_closed t c r : tails t c -> closed (t ++ r).
Proof. intros H. destruct H; exact I. Qed.
Lemma prog_head b c r r' : prog b c -> closed r -> b ++ r' = r -> b = [] /\ c = [] /\ r' = r.
Proof. intros H Hc E. destruct H; cbn in E; subst r; cbn in Hc; try contradiction Hc. auto. Qed.

Lemma gram_unique :
  (forall b cb, prog b cb -> forall b' cb' r r', prog b' cb' -> closed r -> closed r' -> b ++ r = b' ++ r' ->
      b = b' /\ cb = cb' /\ r = r') /\
  (forall t ct, tails t ct -> forall t' ct' r r', tails t' ct' -> t ++ r = t' ++ r' -> t = t' /\ ct = ct' /\ r = r') /\
  (forall k cs, clauses k cs -> forall k' cs' r r', clauses k' cs' -> stops r -> stops r' -> k ++ r = k' ++ r' ->
      k = k' /\ cs = cs' /\ r = r').
Proof.
  apply gram_ind.
  - intros b' cb' r r' Hp Hr Hr' E. symmetry in E. cbn [app] in E.
    destruct (prog_head _ _ _ _ Hp Hr E) as [-> [-> ->]]. auto.
  - intros l c _ IH b' cb' r r' Hp Hr Hr' E. destruct Hp; cbn in E; try discriminate; [subst r'; contradiction Hr'|].
    injection E as E. destruct (IH _ _ _ _ Hp Hr Hr' E) as [-> [-> ->]]. auto.
  - intros k l c _ IH b' cb' r r' Hp Hr Hr' E. destruct Hp; cbn in E; try discriminate; [subst r'; contradiction Hr'|].
    injection E as -> E. destruct (IH _ _ _ _ Hp Hr Hr' E) as [-> [-> ->]]. auto.
  - intros l c _ IH b' cb' r r' Hp Hr Hr' E. destruct Hp; cbn in E; try discriminate; [subst r'; contradiction Hr'|].
    injection E as E. destruct (IH _ _ _ _ Hp Hr Hr' E) as [-> [-> ->]]. auto.
  - intros n l c _ IH b' cb' r r' Hp Hr Hr' E. destruct Hp; cbn in E; try discriminate; [subst r'; contradiction Hr'|].
    injection E as -> E. destruct (IH _ _ _ _ Hp Hr Hr' E) as [-> [-> ->]]. auto.
  - intros l c _ IH b' cb' r r' Hp Hr Hr' E. destruct Hp; cbn in E; try discriminate; [subst r'; contradiction Hr'|].
    injection E as E. destruct (IH _ _ _ _ Hp Hr Hr' E) as [-> [-> ->]]. auto.
  - intros l c _ IH b' cb' r r' Hp Hr Hr' E. destruct Hp; cbn in E; try discriminate; [subst r'; contradiction Hr'|].
    injection E as E. destruct (IH _ _ _ _ Hp Hr Hr' E) as [-> [-> ->]]. auto.
  - intros l c _ IH b' cb' r r' Hp Hr Hr' E. destruct Hp; cbn in E; try discriminate; [subst r'; contradiction Hr'|].
    injection E as E. destruct (IH _ _ _ _ Hp Hr Hr' E) as [-> [-> ->]]. auto.
  - intros t l c _ IH b' cb' r r' Hp Hr Hr' E. destruct Hp; cbn in E; try discriminate; [subst r'; contradiction Hr'|].
    injection E as -> E. destruct (IH _ _ _ _ Hp Hr Hr' E) as [-> [-> ->]]. auto.
  - intros t b cb l c _ IHb _ _ IHl b' cb' r r' Hp Hr Hr' E.
    destruct Hp as [| | | | | | | | |t2 b2 cb2 l2 c2 Hp1 Hn Hp2| |]; cbn in E; try discriminate; [subst r'; contradiction Hr'|].
    injection E as -> E. rewrite <- !app_assoc in E. cbn [app] in E.
    destruct (IHb b2 cb2 (LDone :: l ++ r) (LDone :: l2 ++ r') Hp1 I I E) as [-> [-> E2]]. injection E2 as E2.
    destruct (IHl _ _ _ _ Hp2 Hr Hr' E2) as [-> [-> ->]]. auto.
  - intros t b cb rr cr l c _ IHb _ Ht IHt _ IHl b' cb' r r' Hp Hr Hr' E.
    destruct Hp as [| | | | | | | | | |t2 b2 cb2 rr2 cr2 l2 c2 Hp1 Hn Ht2 Hp2|]; cbn in E; try discriminate; [subst r'; contradiction Hr'|].
    injection E as -> E. rewrite <- !app_assoc in E.
    destruct (IHb b2 cb2 _ _ Hp1 (tails_closed _ _ _ Ht) (tails_closed _ _ _ Ht2) E) as [-> [-> E2]].
    destruct (IHt _ _ _ _ Ht2 E2) as [-> [-> E3]].
    destruct (IHl _ _ _ _ Hp2 Hr Hr' E3) as [-> [-> ->]]. auto.
  - intros v k cs l c _ IHk _ IHl b' cb' r r' Hp Hr Hr' E.
    destruct Hp as [| | | | | | | | | | |v2 k2 cs2 l2 c2 Hp1 Hp2]; cbn in E; try discriminate; [subst r'; contradiction Hr'|].
    injection E as -> E. rewrite <- !app_assoc in E. cbn [app] in E.
    destruct (IHk k2 cs2 (LEsac :: l ++ r) (LEsac :: l2 ++ r') Hp1 I I E) as [-> [-> E2]]. injection E2 as E2.
    destruct (IHl _ _ _ _ Hp2 Hr Hr' E2) as [-> [-> ->]]. auto.
  - intros t' ct' r r' Ht E. destruct Ht; cbn in E; try discriminate. injection E as ->. auto.
  - intros b cb _ IHb _ t' ct' r r' Ht E. destruct Ht as [|b2 cb2 Hp2 _|]; cbn in E; try discriminate.
    injection E as E. rewrite <- !app_assoc in E. cbn [app] in E.
    destruct (IHb b2 cb2 (LFi :: r) (LFi :: r') Hp2 I I E) as [-> [-> E2]]. injection E2 as ->. auto.
  - intros t b cb rr cr _ IHb _ Hta IHt t' ct' r r' Ht E. destruct Ht as [| |t2 b2 cb2 rr2 cr2 Hp2 _ Ht2]; cbn in E; try discriminate.
    injection E as -> E. rewrite <- !app_assoc in E.
    destruct (IHb b2 cb2 _ _ Hp2 (tails_closed _ _ _ Hta) (tails_closed _ _ _ Ht2) E) as [-> [-> E2]].
    destruct (IHt _ _ _ _ Ht2 E2) as [-> [-> ->]]. auto.
  - intros k' cs' r r' Hk Hr Hr' E. destruct Hk; cbn in E; [auto|]. subst r. contradiction Hr.
  - intros ps b cb k cs _ _ IHb _ IHk k' cs' r r' Hk Hr Hr' E.
    destruct Hk as [|ps2 b2 cb2 k2 cs2 _ Hp2 Hk2]; cbn in E; [subst r'; contradiction Hr'|].
    injection E as -> E. rewrite <- !app_assoc in E. cbn [app] in E.
    destruct (IHb b2 cb2 (LDsemi :: k ++ r) (LDsemi :: k2 ++ r') Hp2 I I E) as [-> [-> E2]]. injection E2 as E2.
    destruct (IHk _ _ _ _ Hk2 Hr Hr' E2) as [-> [-> ->]]. auto.
Qed.
Theorem c28_one_reading l a a' : prog l a -> prog l a' -> a = a'.
Proof.
  intros H1 H2. destruct (proj1 gram_unique l a H1 l a' [] [] H2 I I eq_refl) as [_ [E _]]. exact E.
Qed.
End Un.

(** ** The theorem *)
(* a C function body ends by reaching its end or by return; the compiled one has then also restored
   the caller's variables, once *)
Definition same_end {St} (restore : St -> St) (o : option (cout St)) (o' : option (hout St)) : Prop :=
  match o, o' with
  | None, None => True
  | Some (CN s), Some (ON s') | Some (CN s), Some (OR s')
  | Some (CR s), Some (ON s') | Some (CR s), Some (OR s') => s' = restore s
  | Some (CH s), Some (OH s') => s' = s
  | _, _ => False
  end.

(* Whatever the simple statements, tests, switch values and constants do: if the commands emitted for
   each simple statement do what the statement does, the words of the switches have the switch values
   and the patterns match exactly their constants, then the code of a function is one shell command
   list, and running it with n rounds for every loop gives the end state of the C function (and does
   not end within n rounds per loop exactly when the C function does not). *)
Theorem c28_function (A T V P K St : Type) (gen : A -> list K) (vgen : V -> list K)
    (cmd : K -> St -> ares St) (tst : T -> St -> tres St) (word : V -> St -> vres St) (pmatch : P -> St -> Z -> bool)
    (restore : St -> St) (act : A -> St -> ares St) (val : V -> St -> vres St) (kval : P -> Z) :
  (forall a s, act a s = runk K St cmd (gen a) s) ->
  (forall v s, val v s = match runk K St cmd (vgen v) s with Norm s1 => word v s1 | Halt s1 => VHalt s1 end) ->
  (forall p s z, pmatch p s z = Z.eqb z (kval p)) ->
  forall (pre : list K) (body : stmts A T V P) code,
  okl A T V P body = true ->
  comp_fun A T V P K gen vgen pre body = Some code ->
  exists a, prog T V P K code a /\ (forall a', prog T V P K code a' -> a' = a) /\
  forall n s, match runk K St cmd pre s with
              | Halt s1 => hevals T V P K St cmd tst word pmatch restore n a s = Some (OH s1)
              | Norm s1 => same_end restore (cevals A T V P St act tst val kval n body s1)
                                            (hevals T V P K St cmd tst word pmatch restore n a s)
              end.
Proof.
  intros Hact Hval Hpat pre body code Hok H. unfold comp_fun in H.
  destruct (comp_body A T V P K gen vgen body [] false true false) as [[[c q] t]|] eqn:Ec; [|discriminate].
  inversion H; subst code. clear H.
  destruct (proj1 (proj2 (main A T V P K St gen vgen cmd tst word pmatch restore act val kval Hact Hval Hpat) body)
              [] false true c q t Hok I Ec) as [_ [_ [a [Pa [_ R]]]]].
  assert (Pc : prog T V P K (cmds T V P K pre ++ c ++ [LRestore]) (map HCmd pre ++ a ++ [HRestore])).
  { apply prog_app; [apply prog_cmds|]. apply prog_app; [exact Pa|]. constructor. constructor. }
  exists (map HCmd pre ++ a ++ [HRestore]). split; [exact Pc|].
  split; [intros a' Ha'; exact (c28_one_reading _ _ _ _ _ _ _ Ha' Pc)|].
  intros n s. rewrite hevals_app, hevals_cmds.
  destruct (runk K St cmd pre s) as [s1|s1]; cbn [hseq]; [|reflexivity].
  rewrite hevals_app. specialize (R n s1).
  destruct (cevals A T V P St act tst val kval n body s1) as [o|],
           (hevals T V P K St cmd tst word pmatch restore n a s1) as [o'|]; cbn [orel] in R; try contradiction R; [|exact I].
  destruct o as [s2|s2|s2|s2|s2]; cbn [rel] in R.
  - destruct R as [_ ->]. cbn. reflexivity.
  - contradiction R.
  - contradiction R.
  - destruct R as [->|[_ ->]]; cbn; reflexivity.
  - subst o'. cbn. reflexivity.
Qed.

(* Runs that never end are covered as well: cut every run after [m] simple commands ([budget]); the
   states where the C run and the shell run are cut are the same. *)
Definition budget {K St} (cmd : K -> St -> ares St) (k : K) (x : St * nat) : ares (St * nat) :=
  match x with
  | (s, O) => Halt (s, O)
  | (s, S m) => match cmd k s with Norm s1 => Norm (s1, m) | Halt s1 => Halt (s1, m) end
  end.
Definition btst {T St} (tst : T -> St -> tres St) (t : T) (x : St * nat) : tres (St * nat) :=
  match tst t (fst x) with TVal b s1 => TVal b (s1, snd x) | THalt s1 => THalt (s1, snd x) end.
Definition bword {V St} (word : V -> St -> vres St) (v : V) (x : St * nat) : vres (St * nat) :=
  match word v (fst x) with VVal z s1 => VVal z (s1, snd x) | VHalt s1 => VHalt (s1, snd x) end.
Corollary c28_every_prefix (A T V P K St : Type) (gen : A -> list K) (vgen : V -> list K)
    (cmd : K -> St -> ares St) (tst : T -> St -> tres St) (word : V -> St -> vres St) (pmatch : P -> St -> Z -> bool)
    (restore : St -> St) (kval : P -> Z) :
  (forall p s z, pmatch p s z = Z.eqb z (kval p)) ->
  forall (pre : list K) (body : stmts A T V P) code,
  okl A T V P body = true ->
  comp_fun A T V P K gen vgen pre body = Some code ->
  exists a, prog T V P K code a /\ (forall a', prog T V P K code a' -> a' = a) /\
  forall n s m,
    let run := runk K (St * nat) (budget cmd) in
    let shell := hevals T V P K (St * nat) (budget cmd) (btst tst) (bword word) (fun p x => pmatch p (fst x))
                        (fun x => (restore (fst x), snd x)) n a (s, m) in
    match run pre (s, m) with
    | Halt x => shell = Some (OH x)
    | Norm x => same_end (fun x => (restore (fst x), snd x))
                 (cevals A T V P (St * nat) (fun a => run (gen a)) (btst tst)
                    (fun v y => match run (vgen v) y with Norm y1 => bword word v y1 | Halt y1 => VHalt y1 end)
                    kval n body x) shell
    end.
Proof.
  intros Hpat pre body code Hok H.
  assert (Hpat' : forall p (x : St * nat) z, (fun p x => pmatch p (fst x)) p x z = Z.eqb z (kval p)) by (intros; apply Hpat).
  destruct (c28_function A T V P K (St * nat) gen vgen (budget cmd) (btst tst) (bword word) (fun p x => pmatch p (fst x))
              (fun x => (restore (fst x), snd x)) (fun a => runk K (St * nat) (budget cmd) (gen a))
              (fun v y => match runk K (St * nat) (budget cmd) (vgen v) y with Norm y1 => bword word v y1 | Halt y1 => VHalt y1 end)
              kval (fun a s => eq_refl) (fun v s => eq_refl) Hpat' pre body code Hok H) as [a [H1 [H2 H3]]].
  exists a. split; [exact H1|]. split; [exact H2|]. intros n s m. exact (H3 n (s, m)).
Qed.

(* more rounds do not change an ended run: the number of rounds only says "not yet" *)
Section Mono.
Variables A T V P St : Type.
Variable act : A -> St -> ares St.
Variable tst : T -> St -> tres St.
Variable val : V -> St -> vres St.
Variable kval : P -> Z.
Notation ceval := (ceval A T V P St act tst val kval).
Notation cevals := (cevals A T V P St act tst val kval).
Notation cjump := (cjump A T V P St act tst val kval).
Notation cloop := (cloop A T St act tst).
Notation dloop := (dloop T St tst).
Lemma cloop_mono t f g e : (forall s o, f s = Some o -> g s = Some o) ->
  forall n m s o, n <= m -> cloop t f e n s = Some o -> cloop t g e m s = Some o.
Proof.
  intros Hf. induction n as [|n IH]; intros m s o L H; [discriminate|]. destruct m as [|m]; [lia|].
  assert (L' : n <= m) by lia. cbn [ShStmt.cloop] in *.
  destruct t as [t|].
  - destruct (tst t s) as [[] s1|s1]; auto. destruct (f s1) as [o1|] eqn:E1; [|discriminate]. rewrite (Hf _ _ E1).
    destruct o1; auto; (destruct e as [a|]; [destruct (act a _); auto|auto]).
  - destruct (f s) as [o1|] eqn:E1; [|discriminate]. rewrite (Hf _ _ E1).
    destruct o1; auto; (destruct e as [a|]; [destruct (act a _); auto|auto]).
Qed.
Lemma dloop_mono t f g : (forall s o, f s = Some o -> g s = Some o) ->
  forall n m s o, n <= m -> dloop f t n s = Some o -> dloop g t m s = Some o.
Proof.
  intros Hf. induction n as [|n IH]; intros m s o L H; [discriminate|]. destruct m as [|m]; [lia|].
  assert (L' : n <= m) by lia. cbn [ShStmt.dloop] in *.
  destruct (f s) as [o1|] eqn:E1; [|discriminate]. rewrite (Hf _ _ E1).
  destruct o1; auto; (destruct (tst t _) as [[] s3|s3]; auto).
Qed.
Lemma ceval_mono n m : n <= m ->
  (forall c s o, ceval n c s = Some o -> ceval m c s = Some o) /\
  (forall l, (forall s o, cevals n l s = Some o -> cevals m l s = Some o) /\
             (forall f s o, cjump n f l s = Some o -> cjump m f l s = Some o)).
Proof.
  intros L. apply stmt_stmts_ind; auto.
  - intros t a IHa b IHb s o. cbn [ShStmt.ceval]. destruct (tst t s) as [[]|]; auto.
  - intros t b IHb s o. cbn [ShStmt.ceval]. apply cloop_mono; auto.
  - intros b IHb t s o. cbn [ShStmt.ceval]. apply dloop_mono; auto.
  - intros i t e b IHb s o. cbn [ShStmt.ceval]. destruct (to_int A St act i s); auto. apply cloop_mono; auto.
  - intros v l [_ IH] s o H. rewrite ceval_switch in *. destruct (val v s) as [z s1|]; auto.
    match type of H with match ?x with _ => _ end = _ => destruct x as [o1|] eqn:E; [|discriminate] end.
    rewrite (IH _ _ _ E). exact H.
  - intros l [IH _] s o H. exact (IH s o H).
  - intros ls c IHc l [IH1 IH2].
    assert (G : forall s o, match ceval n c s with Some (CN s1) => cevals n l s1 | o => o end = Some o ->
                match ceval m c s with Some (CN s1) => cevals m l s1 | o => o end = Some o).
    { intros s o H. destruct (ceval n c s) as [o1|] eqn:E; [|discriminate]. rewrite (IHc _ _ E). destruct o1; auto. }
    split.
    + intros s o H. rewrite cevals_cons in *. apply G. exact H.
    + intros f s o H. rewrite cjump_cons in *. destruct (f ls); auto.
Qed.
Theorem c28_rounds n m l s o : n <= m -> cevals n l s = Some o -> cevals m l s = Some o.
Proof. intros L. apply (proj2 (ceval_mono n m L)). Qed.
End Mono.

(** ** A concrete reading: the state is the list of actions done so far, newest first *)
Definition tr := list nat.
Definition cmd1 (k : nat) (s : tr) : ares tr := Norm (k :: s).
Definition tst1 (t : nat) (s : tr) : tres tr := TVal (Nat.ltb (length s) t) s.     (* fewer than t actions so far *)
Definition word1 (v : Z) (s : tr) : vres tr := VVal v s.
Definition pm1 (p : Z) (s : tr) (z : Z) : bool := Z.eqb z p.
Definition res1 (s : tr) : tr := 99 :: s.
Definition code1 (l : stmts nat nat Z Z) := comp_fun nat nat Z Z nat (fun a => [a]) (fun _ => []) [] l.
Definition c1 (n : nat) (l : stmts nat nat Z Z) := cevals nat nat Z Z tr cmd1 tst1 word1 (fun p => p) n l [].
Definition h1 (n : nat) (a : list (sh nat Z Z nat)) := hevals nat Z Z nat tr cmd1 tst1 word1 pm1 res1 n a [].

(* pnut accepts the function, its code has one reading, both runs end, and they end differently *)
Definition goes_wrong (l : stmts nat nat Z Z) : Prop :=
  exists code a n o o', code1 l = Some code /\ prog _ _ _ _ code a /\ (forall a', prog _ _ _ _ code a' -> a' = a) /\
    c1 n l = Some o /\ h1 n a = Some o' /\ ~ same_end res1 (Some o) (Some o').
Fixpoint block (l : list (stmt nat nat Z Z)) : stmts nat nat Z Z :=
  match l with [] => Snil | c :: r => Scons [] c (block r) end.

Ltac wrong cd a n o o' :=
  exists cd, a, n, o, o'; split; [reflexivity|];
  match goal with |- ?P /\ _ => assert (HP : P); [|split; [exact HP|]; split;
    [intros a' Ha'; exact (c28_one_reading _ _ _ _ _ _ _ Ha' HP)|]; split; [reflexivity|]; split; [reflexivity|]; cbn; discriminate] end.

(* do { if (len < 1) { act 1; continue; } act 2; } while (len < 1);   the test after continue is skipped *)
Theorem c28_do_continue_refuted :
  goes_wrong (block [SDo (SBlock (block [SIf 1 (SBlock (block [SAtom 1; SContinue])) SEmpty; SAtom 2])) 1]).
Proof.
  wrong [LWhile None; LIf 1; LCmd 1; LContinue; LFi; LCmd 2; LOrBreak 1; @LDone nat Z Z nat; LRestore]
    [HWhile None [HIf 1 [@HCmd nat Z Z nat 1; HContinue] []; HCmd 2; HOrBreak 1]; HRestore]
    5 (CN [1]) (ON [99; 2; 1]).
  apply (P_while nat Z Z nat None [LIf 1; LCmd 1; LContinue; LFi; LCmd 2; LOrBreak 1]); [|discriminate|repeat constructor].
  apply (P_if nat Z Z nat 1 [LCmd 1; LContinue] _ [LFi]); [repeat constructor|discriminate|constructor|repeat constructor].
Qed.
(* switch (1) { default: act 1; break; case 1: act 2; break; } *)
Theorem c28_default_first_refuted :
  goes_wrong (block [SSwitch 1%Z (Scons [None] (SAtom 1) (Scons [] SBreak (Scons [Some 1%Z] (SAtom 2) (Scons [] SBreak Snil))))]).
Proof.
  wrong [LCase 1%Z; LPat [None]; LCmd 1; LDsemi; LPat [Some 1%Z]; LCmd 2; LDsemi; @LEsac nat Z Z nat; LRestore]
    [HCase 1%Z [([None], [@HCmd nat Z Z nat 1]); ([Some 1%Z], [HCmd 2])]; HRestore]
    5 (CN [2]) (ON [99; 1]).
  apply (P_case nat Z Z nat 1%Z [LPat [None]; LCmd 1; LDsemi; LPat [Some 1%Z]; LCmd 2; LDsemi]); [|repeat constructor].
  apply (C_cons nat Z Z nat [None] [LCmd 1]); [discriminate|repeat constructor|].
  apply (C_cons nat Z Z nat [Some 1%Z] [LCmd 2]); [discriminate|repeat constructor|constructor].
Qed.
(* for (;;) { act 1; break; } act 2;   what follows the loop is dropped *)
Theorem c28_for_break_refuted :
  goes_wrong (block [SFor None None None (SBlock (block [SAtom 1; SBreak])); SAtom 2]).
Proof.
  wrong [LWhile None; LCmd 1; LBreak 1; @LDone nat Z Z nat; LRestore]
    [HWhile None [@HCmd nat Z Z nat 1; HBreak 1]; HRestore]
    5 (CN [2; 1]) (ON [99; 1]).
  apply (P_while nat Z Z nat None [LCmd 1; LBreak 1]); [repeat constructor|discriminate|repeat constructor].
Qed.
(* if (len < 1) lbl: ;   the body is a comment, which the shell's grammar does not accept *)
Theorem c28_label_refuted : exists code, code1 (block [SIf 1 (SLabel SEmpty) SEmpty]) = Some code /\
  forall a, ~ prog _ _ _ _ code a.
Proof.
  exists [LIf 1; LComment; @LFi nat Z Z nat; LRestore]. split; [reflexivity|].
  intros a H. inversion H as [| | | | | | | | | |t b cb r cr l c Hb Hn Ht Hl E1 E2|]; subst.
  assert (E : b ++ r ++ l = [LComment] ++ [LFi; LRestore]) by assumption.
  assert (Hc : prog nat Z Z nat [LComment] []) by (constructor; constructor).
  destruct (proj1 (gram_unique nat Z Z nat) b cb Hb [LComment] [] (r ++ l) [LFi; LRestore] Hc (tails_closed _ _ _ _ _ _ _ Ht) I E) as [_ [N _]].
  contradiction.
Qed.

(** A function that meets the hypotheses, with nested loops, a switch, break, continue and returns in
    and out of tail position *)
Definition f1 : stmts nat nat Z Z :=
  block [ SAtom 0;
          SFor (Some 1) (Some 12) (Some 2) (SBlock (block [
             SIf 4 SContinue (SIf 5 (SBlock (block [SAtom 3; SContinue])) SEmpty);
             SSwitch 7%Z (Scons [Some 6%Z] (SAtom 4) (Scons [] SBreak
                         (Scons [Some 7%Z; Some 8%Z] (SAtom 5) (Scons [] (SIf 11 SBreak (SReturn 6))
                         (Scons [None] (SReturn 7) Snil)))))]));
          SDo (SBlock (block [SIf 20 SBreak SEmpty; SAtom 8])) 30;
          SWhile 40 (SBlock (block [SAtom 9; SWhile 50 (SIf 17 (SAtom 10) (SReturn 11))]))].
Theorem c28_instance : okl nat nat Z Z f1 = true /\
  (exists code, code1 f1 = Some code) /\ c1 30 f1 = Some (CR [6; 5; 2; 5; 2; 5; 2; 3; 2; 2; 1; 0]).
Proof. split; [reflexivity|]. split; [eexists; reflexivity|]. reflexivity. Qed.
