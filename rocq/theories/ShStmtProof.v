(** * Proof about statements compiled to shell code *)
From Coq Require Import ZArith List Lia Bool.
From Verif Require Import ShStmt.
Import ListNotations.

Section Gr.
Variables T V P K : Type.
Notation ln := (line T V P K).
Notation prog := (@prog T V P K).
Notation tails := (@tails T V P K).
Notation clauses := (@clauses T V P K).

Lemma prog_app l1 c1 : prog l1 c1 -> forall l2 c2, prog l2 c2 -> prog (l1 ++ l2) (c1 ++ c2).
Proof.
  induction 1; intros l2 c2 G2; cbn [app]; try (constructor; auto; fail); auto.
  - rewrite <- app_assoc. cbn [app]. constructor; auto.
  - rewrite <- !app_assoc. apply P_if; auto.
  - rewrite <- app_assoc. cbn [app]. constructor; auto.
Qed.
Lemma prog_cmds l : prog (cmds T V P K l) (map HCmd l).
Proof. induction l; cbn; constructor; auto. Qed.
End Gr.

Section Pr.
Variables A T V P K St : Type.
Variable gen : A -> list K.
Variable vgen : V -> list K.
Variable cmd : K -> St -> ares St.
Variable tst : T -> St -> tres St.
Variable word : V -> St -> vres St.
Variable pmatch : P -> St -> Z -> bool.
Variable restore : St -> St.
Variable act : A -> St -> ares St.
Variable val : V -> St -> vres St.
Variable kval : P -> Z.
Notation stm := (stmt A T V P).
Notation stms := (stmts A T V P).
Notation ln := (line T V P K).
Notation hs := (sh T V P K).
Notation comp := (comp A T V P K gen vgen).
Notation comp_body := (comp_body A T V P K gen vgen).
Notation comp_cases := (comp_cases A T V P K gen vgen).
Notation heval := (heval T V P K St cmd tst word pmatch restore).
Notation hevals := (hevals T V P K St cmd tst word pmatch restore).
Notation hpick := (hpick T V P K St cmd tst word pmatch restore).
Notation hloop := (hloop T St tst).
Notation runk := (runk K St cmd).
Notation ceval := (ceval A T V P St act tst val kval).
Notation cevals := (cevals A T V P St act tst val kval).
Notation cjump := (cjump A T V P St act tst val kval).
Notation cloop := (cloop A T St act tst).
Notation dloop := (dloop T St tst).
Notation prog := (@prog T V P K).
Notation tails := (@tails T V P K).
Notation clauses := (@clauses T V P K).
Notation cmds := (cmds T V P K).
Notation fill := (fill T V P K).
Notation loop_depth := (loop_depth K).
Notation enclosing_loop := (enclosing_loop K).
Notation ends := (ends A T V P).
Notation endsl := (endsl A T V P).
Notation breaks := (breaks A T V P).
Notation breaksl := (breaksl A T V P).
Notation continues := (continues A T V P).
Notation continuesl := (continuesl A T V P).
Notation ok := (ok A T V P).
Notation okl := (okl A T V P).
Notation nolabels := (nolabels A T V P).
Notation default_last := (default_last A T V P).
Notation has_case := (has_case P kval).
Notation has_default := (has_default P).
Notation from := (from A T V P).
Notation env := (list (bind K)).

Hypothesis Hact : forall a s, act a s = runk (gen a) s.
Hypothesis Hval : forall v s, val v s = match runk (vgen v) s with Norm s1 => word v s1 | Halt s1 => VHalt s1 end.
Hypothesis Hpat : forall p s z, pmatch p s z = Z.eqb z (kval p).

(* equations of the evaluators *)
Lemma heval_if F t a b s : heval F (HIf t a b) s =
  match tst t s with THalt s1 => Some (OH s1) | TVal true s1 => hevals F a s1 | TVal false s1 => hevals F b s1 end.
Proof.
  cbn [ShStmt.heval].
  assert (E : forall l s0, (fix list_eval (l : list hs) (s : St) {struct l} : option (hout St) :=
    match l with [] => Some (ON s) | c :: r => hseq St (heval F c s) (list_eval r) end) l s0 = hevals F l s0).
  { induction l as [|c r IH]; intros s0; cbn [ShStmt.hevals]; [reflexivity|].
    destruct (heval F c s0) as [[]|]; cbn [hseq]; auto. }
  destruct (tst t s) as [[]|]; auto.
Qed.
Lemma list_eval_eq F l s0 : (fix list_eval (l : list hs) (s : St) {struct l} : option (hout St) :=
    match l with [] => Some (ON s) | c :: r => hseq St (heval F c s) (list_eval r) end) l s0 = hevals F l s0.
Proof.
  revert s0. induction l as [|c r IH]; intros s0; cbn [ShStmt.hevals]; [reflexivity|].
  destruct (heval F c s0) as [[]|]; cbn [hseq]; auto.
Qed.
Lemma hloop_ext t f g n s : (forall x, f x = g x) -> hloop t f n s = hloop t g n s.
Proof.
  intros E. revert s. induction n as [|n IH]; intros s; [reflexivity|]. cbn [ShStmt.hloop].
  destruct t as [t|].
  - destruct (tst t s) as [[] s1|]; auto. rewrite E. destruct (g s1) as [[s2|[|[|k]] s2|s2|s2|s2]|]; auto.
  - rewrite E. destruct (g s) as [[s2|[|[|k]] s2|s2|s2|s2]|]; auto.
Qed.
Lemma heval_while F t b s : heval F (HWhile t b) s = hloop t (hevals F b) F s.
Proof. cbn [ShStmt.heval]. apply hloop_ext. intros. apply list_eval_eq. Qed.
Lemma heval_case F v cs s : heval F (HCase v cs) s =
  match word v s with VHalt s1 => Some (OH s1) | VVal z s1 => hpick F cs z s1 end.
Proof.
  cbn [ShStmt.heval]. destruct (word v s) as [z s1|]; [|reflexivity].
  induction cs as [|[ps b] r IH]; [reflexivity|]. cbn [ShStmt.hpick].
  destruct (pat_ok P St pmatch ps z s1); [apply list_eval_eq|exact IH].
Qed.
Lemma hevals_app F a : forall b s, hevals F (a ++ b) s = hseq St (hevals F a s) (hevals F b).
Proof.
  induction a as [|c r IH]; intros b s; cbn [app ShStmt.hevals]; [reflexivity|].
  destruct (heval F c s) as [[]|]; cbn [hseq]; auto.
Qed.
Lemma hevals_one F c s : hevals F [c] s = heval F c s.
Proof. cbn [ShStmt.hevals]. destruct (heval F c s) as [[]|]; reflexivity. Qed.
Lemma hevals_cmds F l : forall s, hevals F (map HCmd l) s = Some (match runk l s with Norm s1 => ON s1 | Halt s1 => OH s1 end).
Proof.
  induction l as [|k r IH]; intros s; cbn [map ShStmt.hevals ShStmt.runk]; [reflexivity|].
  cbn [ShStmt.heval]. destruct (cmd k s); cbn [hseq]; auto.
Qed.

Lemma ceval_switch F v l s : ceval F (SSwitch v l) s =
  match val v s with
  | VHalt s1 => Some (CH s1)
  | VVal z s1 =>
      match cjump F (match from (has_case z) l with Some _ => has_case z | None => has_default end) l s1 with
      | Some (CB s2) => Some (CN s2)
      | o => o
      end
  end.
Proof. reflexivity. Qed.
Lemma cevals_cons F ls c r s : cevals F (Scons ls c r) s = match ceval F c s with Some (CN s1) => cevals F r s1 | o => o end.
Proof. reflexivity. Qed.
Lemma cjump_cons F f ls c r s : cjump F f (Scons ls c r) s =
  if f ls then match ceval F c s with Some (CN s1) => cevals F r s1 | o => o end else cjump F f r s.
Proof. reflexivity. Qed.
Lemma ceval_block F l s : ceval F (SBlock l) s = cevals F l s.
Proof. reflexivity. Qed.

(* C facts: statements without break / continue *)
Lemma loop_nb t body e n s : forall o, cloop t body e n s = Some o ->
  match o with CB _ | CC _ => False | _ => True end.
Proof.
  revert s. induction n as [|n IH]; intros s o H; [discriminate|]. cbn [ShStmt.cloop] in H.
  assert (Hn : forall s2, match e with None => cloop t body e n s2
      | Some a => match act a s2 with Norm s3 => cloop t body e n s3 | Halt s3 => Some (CH s3) end end = Some o ->
      match o with CB _ | CC _ => False | _ => True end).
  { intros s2 E. destruct e as [a|]; [|exact (IH _ _ E)]. destruct (act a s2); [exact (IH _ _ E)|]. inversion E; exact I. }
  assert (Hg : forall s1, match body s1 with None => None | Some (CN s2) | Some (CC s2) =>
        match e with None => cloop t body e n s2
      | Some a => match act a s2 with Norm s3 => cloop t body e n s3 | Halt s3 => Some (CH s3) end end
        | Some (CB s2) => Some (CN s2) | Some (CR s2) => Some (CR s2) | Some (CH s2) => Some (CH s2) end = Some o ->
      match o with CB _ | CC _ => False | _ => True end).
  { intros s1 E. destruct (body s1) as [[s2|s2|s2|s2|s2]|]; try exact (Hn _ E); try (inversion E; exact I). }
  destruct t as [t|]; [|exact (Hg _ H)].
  destruct (tst t s) as [[] s1|s1]; [exact (Hg _ H)| |]; inversion H; exact I.
Qed.
Lemma dloop_nb body t n s : forall o, dloop body t n s = Some o ->
  match o with CB _ | CC _ => False | _ => True end.
Proof.
  revert s. induction n as [|n IH]; intros s o H; [discriminate|]. cbn [ShStmt.dloop] in H.
  destruct (body s) as [[s2|s2|s2|s2|s2]|]; try discriminate; try (inversion H; exact I);
    (destruct (tst t s2) as [[] s1|s1]; [exact (IH _ _ H)|inversion H; exact I|inversion H; exact I]).
Qed.
Lemma nobreak : (forall c, breaks c = false -> forall F s s1, ceval F c s <> Some (CB s1)) /\
  (forall l, breaksl l = false -> (forall F s s1, cevals F l s <> Some (CB s1))).
Proof.
  apply stmt_stmts_ind.
  - intros _ F s s1 H. discriminate.
  - intros a _ F s s1 H. cbn in H. destruct (act a s); discriminate.
  - intros t a IHa b IHb H F s s1. cbn [ShStmt.breaks] in H. apply orb_false_iff in H as [H1 H2].
    cbn [ShStmt.ceval]. destruct (tst t s) as [[]|]; auto. discriminate.
  - intros t b _ _ F s s1 H. cbn [ShStmt.ceval] in H. apply loop_nb in H. exact H.
  - intros b _ t _ F s s1 H. cbn [ShStmt.ceval] in H. apply dloop_nb in H. exact H.
  - intros i t e b _ _ F s s1 H. cbn [ShStmt.ceval] in H.
    destruct (to_int A St act i s); [apply loop_nb in H; exact H|discriminate].
  - intros v l _ _ F s s1 H. rewrite ceval_switch in H.
    destruct (val v s) as [z s2|]; [|discriminate].
    match type of H with match ?e with _ => _ end = _ => destruct e as [[]|] eqn:E end; discriminate.
  - discriminate.
  - intros _ F s s1 H. discriminate.
  - intros a _ F s s1 H. cbn in H. destruct (act a s); discriminate.
  - intros l IH H. exact (IH H).
  - intros c IH H. exact (IH H).
  - intros _ F s s1 H. discriminate.
  - intros ls c IHc l IHl H F s s1. cbn [ShStmt.breaksl] in H. apply orb_false_iff in H as [H1 H2].
    rewrite cevals_cons. specialize (IHc H1 F s). destruct (ceval F c s) as [[]|]; auto; try discriminate.
Qed.
Lemma nocontinue : (forall c, continues c = false -> forall F s s1, ceval F c s <> Some (CC s1)) /\
  (forall l, continuesl l = false -> (forall F s s1, cevals F l s <> Some (CC s1)) /\
     (forall F f s s1, cjump F f l s <> Some (CC s1))).
Proof.
  apply stmt_stmts_ind.
  - intros _ F s s1 H. discriminate.
  - intros a _ F s s1 H. cbn in H. destruct (act a s); discriminate.
  - intros t a IHa b IHb H F s s1. cbn [ShStmt.continues] in H. apply orb_false_iff in H as [H1 H2].
    cbn [ShStmt.ceval]. destruct (tst t s) as [[]|]; auto. discriminate.
  - intros t b _ _ F s s1 H. cbn [ShStmt.ceval] in H. apply loop_nb in H. exact H.
  - intros b _ t _ F s s1 H. cbn [ShStmt.ceval] in H. apply dloop_nb in H. exact H.
  - intros i t e b _ _ F s s1 H. cbn [ShStmt.ceval] in H.
    destruct (to_int A St act i s); [apply loop_nb in H; exact H|discriminate].
  - intros v l IH Hc F s s1 H. rewrite ceval_switch in H.
    destruct (val v s) as [z s2|]; [|discriminate].
    destruct (IH Hc) as [_ IH2].
    match type of H with match ?e with _ => _ end = _ => destruct e as [[]|] eqn:E end; try discriminate. apply IH2 in E. exact E.
  - intros _ F s s1 H. discriminate.
  - discriminate.
  - intros a _ F s s1 H. cbn in H. destruct (act a s); discriminate.
  - intros l IH H. exact (proj1 (IH H)).
  - intros c IH H. exact (IH H).
  - intros _. split; intros; discriminate.
  - intros ls c IHc l IHl H. cbn [ShStmt.continuesl] in H. apply orb_false_iff in H as [H1 H2].
    destruct (IHl H2) as [I1 I2].
    assert (G : forall F s s1, match ceval F c s with Some (CN s1) => cevals F l s1 | o => o end <> Some (CC s1)).
    { intros F s s1. specialize (IHc H1 F s). destruct (ceval F c s) as [[]|]; auto; try discriminate. }
    split.
    + intros F s s1. exact (G F s s1).
    + intros F f s s1. rewrite cjump_cons. destruct (f ls); [exact (G F s s1)|apply I2].
Qed.

(* how the outcome of a C statement shows in the shell *)
Definition fall (e : env) (s : St) : hout St := match loop_depth e with O => ON s | n => OB n s end.
Definition leaks (e : env) (tail q : bool) : Prop := tail = true \/ (q = true /\ exists r, e = BSwitch true :: r).
Definition rel (e : env) (tail q : bool) (o : cout St) (o' : hout St) : Prop :=
  match o with
  | CN s => q = false /\ o' = ON s
  | CB s => match e with [] => False | BLoop _ :: _ => o' = OB 1 s | BSwitch _ :: _ => q = true /\ o' = ON s end
  | CC s => match enclosing_loop e with
            | None => False
            | Some k => o' = match runk k s with Norm s1 => OC s1 | Halt s1 => OH s1 end
            end
  | CR s => o' = OR (restore s) \/ (leaks e tail q /\ o' = fall e s)
  | CH s => o' = OH s
  end.
Definition orel (R : cout St -> hout St -> Prop) (o : option (cout St)) (o' : option (hout St)) : Prop :=
  match o, o' with
  | None, None => True
  | Some o, Some o' => R o o'
  | _, _ => False
  end.
Lemma orel_imp (R R' : cout St -> hout St -> Prop) o o' : (forall a b, R a b -> R' a b) -> orel R o o' -> orel R' o o'.
Proof. intros H. destruct o, o'; cbn; auto. Qed.

Lemma cmds_rel e tail a F s :
  orel (rel e tail false) (Some (match act a s with Norm s1 => CN s1 | Halt s1 => CH s1 end)) (hevals F (map HCmd (gen a)) s).
Proof. rewrite hevals_cmds, Hact. destruct (runk (gen a) s); cbn; auto. Qed.

(* loops *)
Definition rel_loop := rel.
Lemma leak_loop k e tail q : leaks (BLoop k :: e) tail q -> tail = true.
Proof. intros [H|[_ [r H]]]; [exact H|discriminate]. Qed.

Lemma fall_loop k e s : fall (BLoop k :: e) s = OB (S (loop_depth e)) s.
Proof. reflexivity. Qed.
Lemma fall_out e tail q s : leaks e tail q ->
  orel (rel e tail q) (Some (CR s)) (match loop_depth e with O => Some (ON s) | S n => Some (OB (S n) s) end).
Proof.
  intros L. cbn [orel]. destruct (loop_depth e) eqn:E; cbn [rel]; right; split; auto; unfold fall; rewrite E; reflexivity.
Qed.
Lemma loop_rel e tail q qb t kb (x : option A) k n F :
  (forall s, orel (rel (BLoop k :: e) tail qb) (kb s) (hevals F n s)) ->
  k = match x with Some a => gen a | None => [] end ->
  (q = true -> t = None /\ qb = true /\ forall s s1, kb s <> Some (CB s1)) ->
  forall m s, orel (rel e tail q) (cloop t kb x m s) (hloop t (hevals F (n ++ map HCmd k)) m s).
Proof.
  intros Hb Hk Hq. induction m as [|m IH]; intros s; [exact I|].
  cbn [ShStmt.cloop ShStmt.hloop].
  assert (Hnext : forall s2, orel (rel e tail q)
     match x with None => cloop t kb x m s2
        | Some a => match act a s2 with Norm s3 => cloop t kb x m s3 | Halt s3 => Some (CH s3) end end
     match runk k s2 with Norm s3 => hloop t (hevals F (n ++ map HCmd k)) m s3 | Halt s3 => Some (OH s3) end).
  { intros s2. destruct x as [a|].
    - subst k. rewrite Hact. destruct (runk (gen a) s2); [apply IH|cbn; reflexivity].
    - subst k. apply IH. }
  assert (Hgo : forall s1, orel (rel e tail q)
     match kb s1 with None => None | Some (CN s2) | Some (CC s2) =>
        match x with None => cloop t kb x m s2
        | Some a => match act a s2 with Norm s3 => cloop t kb x m s3 | Halt s3 => Some (CH s3) end end
        | Some (CB s2) => Some (CN s2) | Some (CR s2) => Some (CR s2) | Some (CH s2) => Some (CH s2) end
     match hevals F (n ++ map HCmd k) s1 with
        | None => None
        | Some (ON s2) | Some (OC s2) => hloop t (hevals F (n ++ map HCmd k)) m s2
        | Some (OB (S (S k)) s2) => Some (OB (S k) s2)
        | Some (OB _ s2) => Some (ON s2)
        | Some (OR s2) => Some (OR s2)
        | Some (OH s2) => Some (OH s2)
        end).
  { intros s1. specialize (Hb s1). rewrite hevals_app.
    destruct (kb s1) as [[s2|s2|s2|s2|s2]|] eqn:Ek; destruct (hevals F n s1) as [o'|] eqn:Eh; try contradiction Hb; cbn [orel rel] in Hb.
    - destruct Hb as [_ ->]. cbn [hseq]. rewrite hevals_cmds. specialize (Hnext s2). destruct (runk k s2); exact Hnext.
    - rewrite Hb. cbn [hseq]. cbn. split; [|reflexivity]. destruct q; [|reflexivity].
      destruct (Hq eq_refl) as [_ [_ N]]. exfalso. exact (N _ _ Ek).
    - cbn [ShStmt.enclosing_loop] in Hb. specialize (Hnext s2). destruct (runk k s2); subst o'; cbn [hseq]; exact Hnext.
    - destruct Hb as [->|[L ->]]; cbn [hseq].
      + cbn. left. reflexivity.
      + apply leak_loop in L. rewrite fall_loop. cbn [hseq]. apply fall_out. left. exact L.
    - rewrite Hb. cbn. reflexivity.
    - exact I. }
  destruct t as [t|]; [|apply Hgo].
  destruct (tst t s) as [[] s1|s1].
  - apply Hgo.
  - cbn. split; [|reflexivity]. destruct q; [|reflexivity]. destruct (Hq eq_refl) as [N _]. discriminate.
  - cbn. reflexivity.
Qed.

Lemma dloop_rel e tail qb t kb n F :
  (forall s, orel (rel (BLoop [] :: e) tail qb) (kb s) (hevals F n s)) ->
  (forall s s1, kb s <> Some (CC s1)) ->
  forall m s, orel (rel e tail false) (dloop kb t m s) (hloop None (hevals F (n ++ [HOrBreak t])) m s).
Proof.
  intros Hb Hc. induction m as [|m IH]; intros s; [exact I|].
  cbn [ShStmt.dloop ShStmt.hloop]. specialize (Hb s). rewrite hevals_app.
  destruct (kb s) as [[s2|s2|s2|s2|s2]|] eqn:Ek; destruct (hevals F n s) as [o'|] eqn:Eh; try contradiction Hb; cbn [orel rel] in Hb.
  - destruct Hb as [_ ->]. cbn [hseq]. rewrite hevals_one. cbn [ShStmt.heval].
    destruct (tst t s2) as [[] s1|s1]; [apply IH|cbn; auto|cbn; auto].
  - rewrite Hb. cbn. auto.
  - exfalso. exact (Hc _ _ Ek).
  - destruct Hb as [->|[L ->]]; cbn [hseq].
    + cbn. left. reflexivity.
    + apply leak_loop in L. rewrite fall_loop. cbn [hseq]. apply fall_out. left. exact L.
  - rewrite Hb. cbn. reflexivity.
  - exact I.
Qed.

(* the body of a case *)
Definition rels (sg : bool) (e : env) (o : cout St) (o' : hout St) : Prop :=
  match o with
  | CN s | CB s => o' = ON s
  | CC s => match enclosing_loop e with
            | None => False
            | Some k => o' = match runk k s with Norm s1 => OC s1 | Halt s1 => OH s1 end
            end
  | CR s => o' = OR (restore s) \/ (sg = true /\ o' = fall e s)
  | CH s => o' = OH s
  end.
Lemma rel_rels sg e q o o' : rel (BSwitch sg :: e) false q o o' -> rels sg e o o'.
Proof.
  destruct o as [s|s|s|s|s]; cbn [rel rels]; intros H.
  - exact (proj2 H).
  - exact (proj2 H).
  - exact H.
  - destruct H as [H|[[L|[_ [r L]]] H]]; [left; exact H|discriminate|].
    right. split; [congruence|exact H].
  - exact H.
Qed.

Lemma from_none_nolabels z l : nolabels l = true -> from (has_case z) l = None.
Proof. induction l as [|ls c r IH]; cbn; [reflexivity|]. destruct ls; [exact IH|discriminate]. Qed.

Lemma pat_spec ls z s : forall str, pat_ok P St pmatch (pattern P ls str) z s =
   has_default ls || has_case z ls || (negb (has_default ls) && pat_ok P St pmatch str z s).
Proof.
  induction ls as [|[p|] r IH]; intros str; cbn [pattern].
  - cbn. reflexivity.
  - rewrite IH. unfold ShStmt.has_case, ShStmt.has_default, pat_ok. cbn [existsb]. rewrite existsb_app. cbn [existsb].
    rewrite Hpat.
    match goal with |- ?a || ?b || (negb ?a && (?c || (?d || false))) = _ => destruct a, b, c, d; reflexivity end.
  - rewrite IH. unfold ShStmt.has_case, ShStmt.has_default, pat_ok. cbn [existsb].
    match goal with |- ?a || ?b || _ = _ => destruct a, b; reflexivity end.
Qed.

(* everything about one statement *)
Definition is_if (c : stm) : bool := match c with SIf _ _ _ => true | _ => false end.
Definition in_sw (e : env) (sw : bool) : Prop := match e with BSwitch _ :: _ => sw = true | _ => True end.
Definition good (c : stm) : Prop := forall e sw ei tail code q t', ok c = true -> in_sw e sw -> (ei = true -> is_if c = true) ->
  comp c e sw ei tail = Some (code, q, t') ->
  q = ends c /\ (t' = true -> leaks e tail q) /\
  exists a, (if ei then tails (code ++ [LFi]) a else prog code a /\ (a = [] -> code = [])) /\
  forall F s, orel (rel e tail q) (ceval F c s) (hevals F a s).
Definition good_body (l : stms) : Prop := forall e sw start code q t', okl l = true -> in_sw e sw ->
  comp_body l e sw start false = Some (code, q, t') ->
  q = endsl l /\ (t' = true -> leaks e start q) /\
  exists a, prog code a /\ (a = [] -> code = []) /\
  forall F s, orel (rel e start q) (cevals F l s) (hevals F a s).
Definition sel (z : Z) (l : stms) := match from (has_case z) l with Some _ => has_case z | None => has_default end.
Definition good_cases (l : stms) : Prop := forall sg e inside tail code t', okl l = true -> default_last l = true ->
  (tail = true -> inside = false /\ sg = true) ->
  comp_cases l (BSwitch sg :: e) inside tail = Some (code, t') ->
  (t' = true -> sg = true) /\
  exists r1 r2 b cs, code = r1 ++ r2 /\ clauses r2 cs /\
    (if inside then exists r0, r1 = r0 ++ [LDsemi] /\ prog r0 b else r1 = []) /\
    (inside = true -> forall F s, orel (rels sg e) (cevals F l s) (hevals F b s)) /\
    (forall F z s, orel (rels sg e) (cjump F (sel z l) l s) (hpick F cs z s)).

Lemma fill_prog code a : prog code a -> (a = [] -> code = []) ->
  exists a', prog (fill code) a' /\ a' <> [] /\ forall F s, hevals F a' s = hevals F a s.
Proof.
  intros H E. destruct code as [|x r].
  - exists [HColon]. cbn [ShStmt.fill]. split; [constructor; constructor|]. split; [discriminate|].
    inversion H; subst. intros F s. reflexivity.
  - exists a. split; [exact H|]. split; [|reflexivity]. intros N. specialize (E N). discriminate.
Qed.
Lemma leaks_mono e tail q q' : (q = true -> q' = true) -> leaks e tail q -> leaks e tail q'.
Proof. intros H [L|[Q L]]; [left; exact L|right; auto]. Qed.

Lemma rel_weak e tl q tail q' o o' : (q = false -> q' = false) ->
  (match e with BSwitch _ :: _ => q = true -> q' = true | _ => True end) ->
  (leaks e tl q -> leaks e tail q') -> rel e tl q o o' -> rel e tail q' o o'.
Proof.
  intros H1 H2 H3. destruct o as [s|s|s|s|s]; cbn [rel]; auto.
  - intros [A1 A2]. auto.
  - destruct e as [|[]]; auto. intros [A1 A2]. auto.
  - intros [A1|[A1 A2]]; auto.
Qed.
Lemma pattern_nil ls : forall str, pattern P ls str = [] -> ls = [] /\ str = [].
Proof.
  induction ls as [|[p|] r IH]; intros str H; cbn [pattern] in H; [auto| |].
  - apply IH in H as [_ H]. destruct str; discriminate.
  - apply IH in H as [_ H]. discriminate.
Qed.
Lemma nolabels_dl l : nolabels l = true -> default_last l = true.
Proof. induction l as [|ls c r IH]; cbn; [auto|]. destruct ls; [exact IH|discriminate]. Qed.
Lemma comp_if_eq t a b e sw ei tail : comp (SIf t a b) e sw ei tail =
  match comp a e sw false tail with
  | None => None
  | Some (ca, qa, t1) =>
      match
        match b with
        | SEmpty => Some ([], false, t1)
        | SIf _ _ _ => comp b e sw true t1
        | _ => match comp b e sw false t1 with
               | None => None
               | Some (cb, qb, t2) => Some (LElse :: fill cb, qb, t2)
               end
        end with
      | None => None
      | Some (cb, qb, t2) =>
          if sw && xorb qa qb then None
          else Some ((if ei then LElif t else LIf t) :: fill ca ++ cb ++ (if ei then [] else [LFi]), qa && qb, t2)
      end
  end.
Proof. reflexivity. Qed.
Lemma body_eq ls c r e sw start tail : comp_body (Scons ls c r) e sw start tail =
  match ls with
  | _ :: _ => None
  | [] =>
      match comp c e sw false (match r with Snil => start | _ => tail end) with
      | None => None
      | Some (c, true, t1) => Some (c, true, t1)
      | Some (c, false, t1) =>
          match comp_body r e sw start t1 with
          | None => None
          | Some (c2, q, t2) => Some (c ++ c2, q, t2)
          end
      end
  end.
Proof. destruct ls; reflexivity. Qed.
Lemma cases_eq ls c r e inside tail : comp_cases (Scons ls c r) e inside tail =
      let go (hd : list ln) (t0 : bool) :=
        match comp c e true false t0 with
        | None => None
        | Some (cc, q, t1) =>
            match comp_cases r e (negb q) t1 with
            | None => None
            | Some (c2, t2) => Some (hd ++ cc ++ (if q then [LDsemi] else []) ++ c2, t2)
            end
        end in
      match ls, inside with
      | [], true => go [] tail
      | _ :: _, true => None
      | [], false => None
      | _ :: _, false => go [LPat (pattern P ls [])] false
      end.
Proof. destruct ls, inside; reflexivity. Qed.
Lemma switch_eq v l e sw ei tail : comp (SSwitch v l) e sw ei tail =
      match l with
      | Snil => None
      | _ => match comp_cases l (BSwitch tail :: e) false tail with
             | None => None
             | Some (c, t1) => Some (cmds (vgen v) ++ LCase v :: c ++ [LEsac], false, t1)
             end
      end.
Proof. destruct l; reflexivity. Qed.

Lemma ok_switch v l : ok (SSwitch v l) = okl l && default_last l.
Proof. reflexivity. Qed.
Lemma okl_cons ls c r : okl (Scons ls c r) = ok c && okl r.
Proof. reflexivity. Qed.

Lemma endsl_cons ls c r : endsl (Scons ls c r) = ends c || endsl r.
Proof. reflexivity. Qed.
Lemma else_part b e sw t1 cb qb t2 : good b -> ok b = true -> in_sw e sw ->
  match b with
  | SEmpty => Some ([], false, t1)
  | SIf _ _ _ => comp b e sw true t1
  | _ => match comp b e sw false t1 with
         | None => None
         | Some (cb, qb, t2) => Some (LElse :: fill cb, qb, t2)
         end
  end = Some (cb, qb, t2) ->
  qb = ends b /\ (t2 = true -> leaks e t1 qb) /\ exists a, tails (cb ++ [LFi]) a /\
  forall F s, orel (rel e t1 qb) (ceval F b s) (hevals F a s).
Proof.
  intros Hg Ho Hi H.
  assert (HE : match comp b e sw false t1 with
         | None => None
         | Some (cb, qb, t2) => Some (LElse :: fill cb, qb, t2)
         end = Some (cb, qb, t2) ->
       qb = ends b /\ (t2 = true -> leaks e t1 qb) /\ exists a, tails (cb ++ [LFi]) a /\
       forall F s, orel (rel e t1 qb) (ceval F b s) (hevals F a s)).
  { intros E. destruct (comp b e sw false t1) as [[[c q] t3]|] eqn:Ec; [|discriminate].
    inversion E; subst. assert (Hf : false = true -> is_if b = true) by discriminate.
    destruct (Hg e sw false t1 c qb t2 Ho Hi Hf Ec) as [Q [L [a [[Pa Pn] R]]]].
    destruct (fill_prog c a Pa Pn) as [a' [P1 [P2 P3]]].
    split; [exact Q|]. split; [exact L|]. exists a'. split.
    - cbn [app]. apply T_else; assumption.
    - intros F s. rewrite P3. apply R. }
  destruct b; try (exact (HE H)).
  - inversion H; subst. split; [reflexivity|]. split; [intros ->; left; reflexivity|].
    exists []. split; [constructor|]. intros F s. cbn. auto.
  - assert (Ht : true = true -> is_if (SIf t b1 b2) = true) by reflexivity.
    destruct (Hg e sw true t1 cb qb t2 Ho Hi Ht H) as [Q [L [a [Pa R]]]].
    split; [exact Q|]. split; [exact L|]. exists a. split; assumption.
Qed.

Theorem main : (forall c, good c) /\ (forall l, good_body l /\ good_cases l).
Proof.
  apply stmt_stmts_ind.
  - (* SEmpty *)
    intros e sw ei tail code q t' _ _ He H. destruct ei; [specialize (He eq_refl); discriminate|].
    inversion H; subst. split; [reflexivity|]. split; [intros ->; left; reflexivity|].
    exists []. split; [split; [constructor|reflexivity]|]. intros F s. cbn. auto.
  - (* SAtom *)
    intros a e sw ei tail code q t' _ _ He H. destruct ei; [specialize (He eq_refl); discriminate|].
    inversion H; subst. split; [reflexivity|]. split; [intros ->; left; reflexivity|].
    exists (map HCmd (gen a)). split.
    + split; [apply prog_cmds|]. intros N. apply map_eq_nil in N. unfold ShStmt.cmds. rewrite N. reflexivity.
    + intros F s. apply cmds_rel.
  - (* SIf *)
    intros t a IHa b IHb e sw ei tail code q t' Ho Hi _ H.
    cbn [ShStmt.ok] in Ho. apply andb_true_iff in Ho as [Hoa Hob]. rewrite comp_if_eq in H.
    destruct (comp a e sw false tail) as [[[ca qa] t1]|] eqn:Ea; [|discriminate].
    match type of H with match ?x with _ => _ end = _ => destruct x as [[[cb qb] t2]|] eqn:Eb; [|discriminate] end.
    destruct (sw && xorb qa qb) eqn:Ex; [discriminate|].
    assert (Hf : false = true -> is_if a = true) by discriminate.
    destruct (IHa e sw false tail ca qa t1 Hoa Hi Hf Ea) as [Qa [La [aa [[Pa Pn] Ra]]]].
    destruct (else_part b e sw t1 cb qb t2 IHb Hob Hi Eb) as [Qb [Lb [ab [Tb Rb]]]].
    destruct (fill_prog ca aa Pa Pn) as [a' [P1 [P2 P3]]].
    inversion H; subst code q t'. clear H.
    assert (Hsw : match e with BSwitch _ :: _ => qa = qb | _ => True end).
    { destruct e as [|[k|g] r]; auto. cbn in Hi. subst sw. cbn in Ex. destruct qa, qb; auto; discriminate. }
    assert (L1 : leaks e tail qa -> leaks e tail (qa && qb)).
    { intros [L|[Qq [r L]]]; [left; exact L|]. right. subst e. cbn in Hsw. rewrite <- Hsw, Qq. split; [reflexivity|eauto]. }
    assert (L2 : leaks e t1 qb -> leaks e tail (qa && qb)).
    { intros [L|[Qq [r L]]]; [apply L1; apply La; exact L|]. right. subst e. cbn in Hsw. rewrite Hsw, Qq. split; [reflexivity|eauto]. }
    split; [cbn [ShStmt.ends]; rewrite <- Qa, <- Qb; reflexivity|].
    split; [intros E; apply L2; apply Lb; exact E|].
    exists [HIf t a' ab]. split.
    + destruct ei.
      * rewrite app_nil_r. cbn [app]. rewrite <- app_assoc. apply T_elif; assumption.
      * split; [|discriminate].
        replace (fill ca ++ cb ++ [LFi]) with (fill ca ++ (cb ++ [LFi]) ++ []) by (rewrite app_nil_r; reflexivity).
        apply P_if; try assumption. constructor.
    + intros F s. rewrite hevals_one, heval_if. cbn [ShStmt.ceval]. destruct (tst t s) as [[] s1|s1].
      * rewrite P3. refine (orel_imp _ _ _ _ _ (Ra F s1)). intros o o'. apply rel_weak.
        -- intros ->. reflexivity.
        -- destruct e as [|[]]; auto. intros ->. rewrite <- Hsw. reflexivity.
        -- exact L1.
      * refine (orel_imp _ _ _ _ _ (Rb F s1)). intros o o'. apply rel_weak.
        -- intros ->. apply andb_false_r.
        -- destruct e as [|[]]; auto. intros ->. rewrite Hsw. reflexivity.
        -- exact L2.
      * cbn. reflexivity.
  - (* SWhile *)
    intros t b IHb e sw ei tail code q t' Ho Hi He H. destruct ei; [specialize (He eq_refl); discriminate|].
    cbn [ShStmt.ok] in Ho. cbn [ShStmt.comp] in H.
    destruct (comp b (BLoop [] :: e) sw false tail) as [[[c qb] t1]|] eqn:Eb; [|discriminate].
    assert (Hf : false = true -> is_if b = true) by discriminate.
    destruct (IHb (BLoop [] :: e) sw false tail c qb t1 Ho I Hf Eb) as [Qb [Lb [a [[Pa Pn] R]]]].
    destruct (fill_prog c a Pa Pn) as [a' [P1 [P2 P3]]].
    inversion H; subst code q t'. split; [reflexivity|].
    split; [intros E; left; exact (leak_loop _ _ _ _ (Lb E))|].
    exists [HWhile (Some t) a']. split.
    + split; [|discriminate]. apply P_while; try assumption. constructor.
    + intros F s. rewrite hevals_one, heval_while. cbn [ShStmt.ceval].
      assert (Hr : forall s, orel (rel (BLoop [] :: e) tail qb) (ceval F b s) (hevals F a' s)) by (intros; rewrite P3; apply R).
      assert (Hq : false = true -> Some t = None /\ qb = true /\ forall s s1, ceval F b s <> Some (CB s1)) by discriminate.
      pose proof (loop_rel e tail false qb (Some t) (ceval F b) None [] a' F Hr eq_refl Hq F s) as G.
      cbn [map] in G. rewrite app_nil_r in G. exact G.
  - (* SDo *)
    intros b IHb t e sw ei tail code q t' Ho Hi He H. destruct ei; [specialize (He eq_refl); discriminate|].
    cbn [ShStmt.ok] in Ho. apply andb_true_iff in Ho as [Ho Hc]. apply negb_true_iff in Hc. cbn [ShStmt.comp] in H.
    destruct (comp b (BLoop [] :: e) sw false tail) as [[[c qb] t1]|] eqn:Eb; [|discriminate].
    assert (Hf : false = true -> is_if b = true) by discriminate.
    destruct (IHb (BLoop [] :: e) sw false tail c qb t1 Ho I Hf Eb) as [Qb [Lb [a [[Pa Pn] R]]]].
    inversion H; subst code q t'. split; [reflexivity|].
    split; [intros E; left; exact (leak_loop _ _ _ _ (Lb E))|].
    exists [HWhile None (a ++ [HOrBreak t])]. split.
    + split; [|discriminate].
      replace (c ++ [LOrBreak t; LDone]) with ((c ++ [LOrBreak t]) ++ LDone :: []) by (rewrite <- app_assoc; reflexivity).
      apply P_while; [|destruct a; discriminate|constructor].
      apply prog_app; [exact Pa|]. constructor. constructor.
    + intros F s. rewrite hevals_one, heval_while. cbn [ShStmt.ceval].
      exact (dloop_rel e tail qb t (ceval F b) a F (R F) (proj1 nocontinue b Hc F) F s).
  - (* SFor *)
    intros i t x b IHb e sw ei tail code q t' Ho Hi He H. destruct ei; [specialize (He eq_refl); discriminate|].
    assert (Hob : ok b = true).
    { cbn [ShStmt.ok] in Ho. destruct t; [exact Ho|]. apply andb_true_iff in Ho as [Ho _]. exact Ho. }
    cbn [ShStmt.comp] in H.
    destruct (comp b (BLoop (oapp A K gen x) :: e) sw false tail) as [[[c qb] t1]|] eqn:Eb; [|discriminate].
    assert (Hf : false = true -> is_if b = true) by discriminate.
    destruct (IHb (BLoop (oapp A K gen x) :: e) sw false tail c qb t1 Hob I Hf Eb) as [Qb [Lb [a [[Pa Pn] R]]]].
    assert (Pa2 : prog (c ++ cmds (oapp A K gen x)) (a ++ map HCmd (oapp A K gen x))).
    { apply prog_app; [exact Pa|apply prog_cmds]. }
    assert (Pn2 : a ++ map HCmd (oapp A K gen x) = [] -> c ++ cmds (oapp A K gen x) = []).
    { intros N. apply app_eq_nil in N as [N1 N2]. apply map_eq_nil in N2. rewrite (Pn N1), N2. reflexivity. }
    destruct (fill_prog _ _ Pa2 Pn2) as [a' [P1 [P2 P3]]].
    inversion H; subst code q t'. split; [destruct t; [reflexivity|exact Qb]|].
    split; [intros E; left; exact (leak_loop _ _ _ _ (Lb E))|].
    exists (map HCmd (oapp A K gen i) ++ [HWhile t a']). split.
    + split; [|destruct (map HCmd (oapp A K gen i)); discriminate].
      apply prog_app; [apply prog_cmds|]. apply P_while; try assumption. constructor.
    + intros F s. rewrite hevals_app, hevals_cmds. cbn [ShStmt.ceval].
      assert (Hi2 : to_int A St act i s = runk (oapp A K gen i) s) by (destruct i; [apply Hact|reflexivity]).
      rewrite Hi2. destruct (runk (oapp A K gen i) s) as [s1|s1]; cbn [hseq]; [|cbn; reflexivity].
      rewrite hevals_one, heval_while.
      rewrite (hloop_ext t (hevals F a') (hevals F (a ++ map HCmd (oapp A K gen x))) F s1 (P3 F)).
      apply (loop_rel e tail _ qb t (ceval F b) x (oapp A K gen x) a F (R F)).
      * destruct x; reflexivity.
      * intros Hq. destruct t; [discriminate|]. split; [reflexivity|]. split; [exact Hq|].
        cbn [ShStmt.ok] in Ho. apply andb_true_iff in Ho as [_ Ho]. apply negb_true_iff in Ho.
        rewrite <- Qb, Hq in Ho. cbn [andb] in Ho. exact (proj1 nobreak b Ho F).
  - (* SSwitch *)
    intros v l IHl e sw ei tail code q t' Ho Hi He H. destruct ei; [specialize (He eq_refl); discriminate|].
    rewrite ok_switch in Ho. apply andb_true_iff in Ho as [Ho Hd].
    rewrite switch_eq in H.
    assert (H' : match comp_cases l (BSwitch tail :: e) false tail with
             | None => None
             | Some (c, t1) => Some (cmds (vgen v) ++ LCase v :: c ++ [LEsac], false, t1)
             end = Some (code, q, t')) by (destruct l; [discriminate|exact H]).
    clear H. rename H' into H.
    destruct (comp_cases l (BSwitch tail :: e) false tail) as [[c t1]|] eqn:Ec; [|discriminate].
    inversion H; subst code q t'. split; [reflexivity|].
    assert (Ht : tail = true -> false = false /\ tail = true) by auto.
    destruct (proj2 IHl tail e false tail c t1 Ho Hd Ht Ec) as [Lt [r1 [r2 [b [cs [E1 [Cl [E2 [_ R]]]]]]]]].
    split; [intros E; left; exact (Lt E)|].
    cbn [app] in E2. rewrite E2 in E1. cbn [app] in E1. subst c.
    exists (map HCmd (vgen v) ++ [HCase v cs]). split.
    + split; [|destruct (map HCmd (vgen v)); discriminate].
      apply prog_app; [apply prog_cmds|]. apply P_case; [exact Cl|constructor].
    + intros F s. rewrite hevals_app, hevals_cmds, ceval_switch, Hval.
      destruct (runk (vgen v) s) as [s1|s1]; cbn [hseq]; [|cbn; reflexivity].
      rewrite hevals_one, heval_case. destruct (word v s1) as [z s2|s2]; [|cbn; reflexivity].
      specialize (R F z s2). unfold sel in R.
      match type of R with orel _ ?x ?y => destruct x as [o|], y as [o'|]; cbn [orel] in R; try contradiction R end; [|exact I].
      destruct o; cbn [rels] in R; cbn [orel rel]; auto.
      destruct R as [R|[R1 R2]]; [left; exact R|right; split; [left; exact R1|exact R2]].
  - (* SBreak *)
    intros e sw ei tail code q t' _ _ He H. destruct ei; [specialize (He eq_refl); discriminate|].
    cbn [ShStmt.comp] in H. destruct e as [|[k|g] r]; inversion H; subst.
    + split; [reflexivity|]. split; [intros ->; left; reflexivity|].
      exists [HBreak 1]. split; [split; [constructor; constructor|discriminate]|]. intros F s. cbn. reflexivity.
    + split; [reflexivity|]. split; [intros ->; left; reflexivity|].
      exists []. split; [split; [constructor|reflexivity]|]. intros F s. cbn. auto.
  - (* SContinue *)
    intros e sw ei tail code q t' _ _ He H. destruct ei; [specialize (He eq_refl); discriminate|].
    cbn [ShStmt.comp] in H. destruct (enclosing_loop e) as [k|] eqn:Ek; inversion H; subst.
    split; [reflexivity|]. split; [intros ->; left; reflexivity|].
    exists (map HCmd k ++ [HContinue]). split.
    + split; [|destruct (map HCmd k); discriminate]. apply prog_app; [apply prog_cmds|constructor; constructor].
    + intros F s. rewrite hevals_app, hevals_cmds. cbn [ShStmt.ceval orel rel]. rewrite Ek.
      destruct (runk k s); cbn; reflexivity.
  - (* SReturn *)
    intros a e sw ei tail code q t' _ _ He H. destruct ei; [specialize (He eq_refl); discriminate|].
    cbn [ShStmt.comp] in H. unfold comp_ret in H.
    set (tail1 := match e with BSwitch t :: _ => tail || t | _ => tail end) in H.
    assert (L : tail1 = true -> leaks e tail true).
    { unfold tail1. destruct e as [|[k|g] r]; intros E; try (left; exact E).
      apply orb_true_iff in E as [E|E]; [left; exact E|]. right. split; [reflexivity|]. subst g. eauto. }
    clearbody tail1.
    inversion H; subst code q t'. split; [reflexivity|]. split; [exact L|].
    exists (map HCmd (gen a) ++ (if tail1 then match loop_depth e with O => [] | n => [HBreak n] end else [HRestore; HReturn])).
    split.
    + split.
      * apply prog_app; [apply prog_cmds|]. destruct tail1; [destruct (loop_depth e)|]; repeat constructor.
      * intros N. apply app_eq_nil in N as [N1 N2]. apply map_eq_nil in N1. rewrite N1.
        destruct tail1; [|discriminate]. destruct (loop_depth e); [reflexivity|discriminate].
    + intros F s. rewrite hevals_app, hevals_cmds. cbn [ShStmt.ceval]. rewrite Hact.
      destruct (runk (gen a) s) as [s1|s1]; cbn [hseq]; [|cbn; reflexivity].
      destruct tail1.
      * specialize (L eq_refl). pose proof (fall_out e tail true s1 L) as G.
        destruct (loop_depth e); exact G.
      * cbn. left. reflexivity.
  - (* SBlock *)
    intros l IHl e sw ei tail code q t' Ho Hi He H. destruct ei; [specialize (He eq_refl); discriminate|].
    destruct (proj1 IHl e sw tail code q t' Ho Hi H) as [Q [L [a [Pa [Pn R]]]]].
    split; [exact Q|]. split; [exact L|]. exists a. split; [split; assumption|].
    intros F s. rewrite ceval_block. apply R.
  - (* SLabel *)
    intros c _ e sw ei tail code q t' Ho. discriminate.
  - (* Snil *)
    split.
    + intros e sw start code q t' _ _ H. inversion H; subst. split; [reflexivity|]. split; [discriminate|].
      exists []. split; [constructor|]. split; [reflexivity|]. intros F s. cbn. auto.
    + intros sg e inside tail code t' _ _ Ht H. cbn [ShStmt.comp_cases] in H. inversion H; subst code t'.
      split; [intros E; exact (proj2 (Ht E))|].
      exists (if inside then [LDsemi] else []), [], [], []. split; [rewrite app_nil_r; reflexivity|].
      split; [constructor|]. split; [destruct inside; [exists []; split; [reflexivity|constructor]|reflexivity]|].
      split; intros; cbn; reflexivity.
  - (* Scons *)
    intros ls c IHc r IHr. split.
    + intros e sw start code q t' Ho Hi H. rewrite okl_cons in Ho. apply andb_true_iff in Ho as [Hoc Hor].
      rewrite body_eq in H. destruct ls; [|discriminate].
      destruct (comp c e sw false match r with Snil => start | _ => false end) as [[[c1 q1] t1]|] eqn:Ec; [|discriminate].
      assert (Hf : false = true -> is_if c = true) by discriminate.
      destruct (IHc e sw false _ c1 q1 t1 Hoc Hi Hf Ec) as [Q1 [L1 [a1 [[Pa1 Pn1] R1]]]].
      set (tl := match r with Snil => start | _ => false end) in *.
      assert (Hs : forall q, leaks e tl q -> leaks e start q).
      { intros q0 [L|L]; [|right; exact L]. left. unfold tl in L. destruct r; [exact L|discriminate]. }
      destruct q1.
      * inversion H; subst code q t'. split; [rewrite endsl_cons, <- Q1; reflexivity|].
        split; [intros E; apply Hs; apply L1; exact E|].
        exists a1. split; [exact Pa1|]. split; [exact Pn1|]. intros F s. rewrite cevals_cons.
        specialize (R1 F s). destruct (ceval F c s) as [o|]; [|exact R1].
        destruct (hevals F a1 s) as [o'|]; [|contradiction R1]. cbn [orel] in R1.
        assert (G : rel e start true o o').
        { revert R1. apply rel_weak; auto. destruct e as [|[]]; auto. }
        destruct o as [s1|s1|s1|s1|s1]; try exact G. destruct R1 as [N _]. discriminate.
      * destruct (comp_body r e sw start t1) as [[[c2 q2] t2]|] eqn:Er; [|discriminate].
        inversion H; subst code q t'.
        assert (HR : q2 = endsl r /\ (t2 = true -> leaks e start q2) /\ exists a, prog c2 a /\ (a = [] -> c2 = []) /\
            forall F s, orel (rel e start q2) match ceval F c s with Some (CN s1) => cevals F r s1 | o => o end (hevals F (a1 ++ a) s)).
        { destruct r as [|ls2 c' r'].
          - inversion Er; subst c2 q2 t2. split; [reflexivity|]. split; [exact L1|].
            exists []. split; [constructor|]. split; [reflexivity|]. intros F s. rewrite app_nil_r.
            specialize (R1 F s). destruct (ceval F c s) as [[]|]; exact R1.
          - assert (t1 = false).
            { destruct t1; [|reflexivity]. destruct (L1 eq_refl) as [N|[N _]]; discriminate. }
            subst t1.
            destruct (proj1 IHr e sw start c2 q2 t2 Hor Hi Er) as [Q2 [L2 [a2 [Pa2 [Pn2 R2]]]]].
            split; [exact Q2|]. split; [exact L2|]. exists a2. split; [exact Pa2|]. split; [exact Pn2|].
            intros F s. rewrite hevals_app. specialize (R1 F s).
            destruct (ceval F c s) as [o|], (hevals F a1 s) as [o'|]; try contradiction R1; [|exact I].
            cbn [orel] in R1. destruct o as [s1|s1|s1|s1|s1]; cbn [rel] in R1.
            + destruct R1 as [_ ->]. apply R2.
            + destruct e as [|[k|g] e']; [contradiction R1| |destruct R1; discriminate]. subst o'. cbn. reflexivity.
            + destruct (enclosing_loop e) as [k|] eqn:Ek; [|contradiction R1]. subst o'.
              assert (G : hseq St (Some match runk k s1 with Norm s2 => OC s2 | Halt s2 => OH s2 end) (hevals F a2) =
                          Some match runk k s1 with Norm s2 => OC s2 | Halt s2 => OH s2 end) by (destruct (runk k s1); reflexivity).
              rewrite G. cbn [orel rel]. rewrite Ek. reflexivity.
            + destruct R1 as [->|[[N|[N _]] _]]; [|discriminate|discriminate]. cbn. left. reflexivity.
            + subst o'. cbn. reflexivity. }
        destruct HR as [Q2 [L2 [a2 [Pa2 [Pn2 R2]]]]].
        split; [rewrite endsl_cons, <- Q1; exact Q2|].
        split; [exact L2|]. exists (a1 ++ a2). split; [apply prog_app; assumption|].
        split; [intros N; apply app_eq_nil in N as [N1 N2]; rewrite (Pn1 N1), (Pn2 N2); reflexivity|].
        intros F s. rewrite cevals_cons. apply R2.
    + intros sg e inside tail code t' Ho Hd Ht H. rewrite okl_cons in Ho. apply andb_true_iff in Ho as [Hoc Hor].
      assert (Hdr : default_last r = true).
      { cbn [ShStmt.default_last] in Hd. destruct (has_default ls); [apply nolabels_dl|]; exact Hd. }
      rewrite cases_eq in H. cbv zeta in H.
      assert (Hgo : forall hd, match comp c (BSwitch sg :: e) true false false with
        | None => None
        | Some (cc, q, t1) =>
            match comp_cases r (BSwitch sg :: e) (negb q) t1 with
            | None => None
            | Some (c2, t2) => Some (hd ++ cc ++ (if q then [LDsemi] else []) ++ c2, t2)
            end
        end = Some (code, t') ->
        (t' = true -> sg = true) /\ exists r0 r2 b cs, code = hd ++ r0 ++ LDsemi :: r2 /\ prog r0 b /\ clauses r2 cs /\
          (forall F s, orel (rels sg e) match ceval F c s with Some (CN s1) => cevals F r s1 | o => o end (hevals F b s)) /\
          (forall F z s, orel (rels sg e) (cjump F (sel z r) r s) (hpick F cs z s))).
      { clear H. intros hd H. destruct (comp c (BSwitch sg :: e) true false false) as [[[cc q] t1]|] eqn:Ec; [|discriminate].
        assert (Hf : false = true -> is_if c = true) by discriminate.
        assert (Hsw : in_sw (BSwitch sg :: e) true) by reflexivity.
        destruct (IHc (BSwitch sg :: e) true false false cc q t1 Hoc Hsw Hf Ec) as [Q1 [L1 [a1 [[Pa1 _] R1]]]].
        destruct (comp_cases r (BSwitch sg :: e) (negb q) t1) as [[c2 t2]|] eqn:Er; [|discriminate].
        assert (Ht1 : t1 = true -> negb q = false /\ sg = true).
        { intros E. destruct (L1 E) as [N|[Eq [x N]]]; [discriminate|]. rewrite Eq. split; [reflexivity|congruence]. }
        destruct (proj2 IHr sg e (negb q) t1 c2 t2 Hor Hdr Ht1 Er) as [Lt [r1 [r2 [b [cs [E1 [Cl [E2 [Rb Rj]]]]]]]]].
        inversion H; subst code t'. split; [exact Lt|].
        destruct q; cbn [negb] in *.
        - subst r1. cbn [app] in E1. subst c2. exists cc, r2, a1, cs. split; [reflexivity|]. split; [exact Pa1|]. split; [exact Cl|].
          split; [|exact Rj]. intros F s. specialize (R1 F s).
          destruct (ceval F c s) as [o|], (hevals F a1 s) as [o'|]; try contradiction R1; [|exact I].
          cbn [orel] in R1. destruct o as [s1|s1|s1|s1|s1]; try (exact (rel_rels _ _ _ _ _ R1)).
          destruct R1 as [N _]. discriminate.
        - destruct E2 as [r0 [E2 Pr0]]. subst r1. subst c2.
          exists (cc ++ r0), r2, (a1 ++ b), cs.
          split; [rewrite <- !app_assoc; reflexivity|].
          split; [apply prog_app; assumption|]. split; [exact Cl|]. split; [|exact Rj].
          intros F s. rewrite hevals_app. specialize (R1 F s).
          destruct (ceval F c s) as [o|], (hevals F a1 s) as [o'|]; try contradiction R1; [|exact I].
          cbn [orel] in R1. pose proof (rel_rels _ _ _ _ _ R1) as G.
          destruct o as [s1|s1|s1|s1|s1]; cbn [rel] in R1.
          + destruct R1 as [_ ->]. apply Rb. reflexivity.
          + destruct R1; discriminate.
          + cbn [rels] in G. destruct (enclosing_loop e) as [k|] eqn:Ek; [|contradiction G]. subst o'.
            assert (G2 : hseq St (Some match runk k s1 with Norm s2 => OC s2 | Halt s2 => OH s2 end) (hevals F b) =
                          Some match runk k s1 with Norm s2 => OC s2 | Halt s2 => OH s2 end) by (destruct (runk k s1); reflexivity).
            rewrite G2. cbn [orel rels]. rewrite Ek. reflexivity.
          + destruct R1 as [->|[[N|[N _]] _]]; [|discriminate|discriminate]. cbn. left. reflexivity.
          + subst o'. cbn. reflexivity. }
      destruct ls as [|lb ls'].
      * destruct inside; [|discriminate].
        assert (tail = false) by (destruct tail; [destruct (Ht eq_refl); discriminate|reflexivity]). subst tail.
        destruct (Hgo [] H) as [Lt [r0 [r2 [b [cs [E1 [Pb [Cl [Rb Rj]]]]]]]]].
        split; [exact Lt|]. exists (r0 ++ [LDsemi]), r2, b, cs.
        split; [rewrite E1, <- app_assoc; reflexivity|]. split; [exact Cl|]. split; [eauto|].
        split; [intros _ F s; rewrite cevals_cons; apply Rb|].
        intros F z s. assert (Es : sel z (Scons [] c r) = sel z r) by reflexivity.
        rewrite Es, cjump_cons.
        assert (Ef : sel z r [] = false) by (unfold sel; destruct (from (has_case z) r); reflexivity).
        rewrite Ef. apply Rj.
      * destruct inside; [discriminate|].
        destruct (Hgo _ H) as [Lt [r0 [r2 [b [cs [E1 [Pb [Cl [Rb Rj]]]]]]]]].
        split; [exact Lt|].
        remember (lb :: ls') as ls eqn:Els.
        assert (Hne : pattern P ls [] <> []) by (intros N; apply pattern_nil in N as [N _]; congruence).
        exists [], (LPat (pattern P ls []) :: r0 ++ LDsemi :: r2), [], ((pattern P ls [], b) :: cs).
        split; [rewrite E1; reflexivity|]. split; [apply C_cons; assumption|]. split; [reflexivity|].
        split; [discriminate|].
        intros F z s. cbn [ShStmt.hpick]. rewrite pat_spec. cbn [pat_ok existsb]. rewrite andb_false_r, orb_false_r.
        rewrite cjump_cons. unfold sel. cbn [ShStmt.from].
        destruct (has_case z ls) eqn:Ecase.
        -- rewrite orb_true_r, Ecase. apply Rb.
        -- rewrite orb_false_r. destruct (has_default ls) eqn:Edef.
           ++ cbn [ShStmt.default_last] in Hd. rewrite Edef in Hd. rewrite (from_none_nolabels z r Hd), Edef. apply Rb.
           ++ specialize (Rj F z s). unfold sel in Rj. destruct (from (has_case z) r); [rewrite Ecase|rewrite Edef]; exact Rj.
Qed.
End Pr.
