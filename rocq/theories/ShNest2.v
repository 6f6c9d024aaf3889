(** * Taking the calls out of an expression keeps its meaning *)
From Coq Require Import ZArith List Lia Bool.
From Verif Require Import Base Ast Parse ShArith ShExpr ShCSem ShEqs ShSem ShStmt ShProg ShProg2 ShProg3 ShLock ShNest ShNest1.
Import ListNotations.
Open Scope Z_scope.
Local Notation length := List.length.

Section Facts.
Variable tb : nat.
Notation lift := (lift tb). Notation lifts := (lifts tb).
Lemma lift_eq e k : lift e k =
  match e with
  | YX e => ([], e, k)
  | YPar a => let '(cs, r, k1) := lift a k in (cs, XPar r, k1)
  | YPlus a => let '(cs, r, k1) := lift a k in (cs, XPlus r, k1)
  | YCast a => let '(cs, r, k1) := lift a k in (cs, XCast r, k1)
  | YUn op a => let '(cs, r, k1) := lift a k in (cs, XUn op r, k1)
  | YDeref a => let '(cs, r, k1) := lift a k in (cs, XDeref r, k1)
  | YMem a m => let '(cs, r, k1) := lift a k in (cs, XMem r m, k1)
  | YIdx a b => let '(ca, ra, k1) := lift a k in let '(cb, rb, k2) := lift b k1 in (ca ++ cb, XIdx ra rb, k2)
  | YBin op a b => let '(ca, ra, k1) := lift a k in let '(cb, rb, k2) := lift b k1 in (ca ++ cb, XBin op ra rb, k2)
  | YComma a b => let '(ca, ra, k1) := lift a k in let '(cb, rb, k2) := lift b k1 in (ca ++ cb, XComma ra rb, k2)
  | YCond t a b => let '(ct, rt, k1) := lift t k in (ct, XCond rt a b, k1)
  | YCall f l => let '(cs, rs, _) := lifts l k in (cs ++ [HC (tb + S k) f rs], XVar (tb + S k), S k)
  | YSet x f l => let '(cs, rs, _) := lifts l k in (cs ++ [HC x f rs], XVar x, k)
  end.
Proof. destruct e; reflexivity. Qed.
Lemma lifts_eq l k : lifts l k =
  match l with
  | Ynil => ([], [], k)
  | Ycons a l => let '(ca, ra, k1) := lift a k in let '(cl, rl, k2) := lifts l k1 in (ca ++ cl, ra :: rl, k2)
  end.
Proof. destruct l; reflexivity. Qed.
(* the variables that receive results; the variables that are left *)
Definition TG (S : list nat) (k : nat) (l : list hc) : Prop := Forall (fun h => In (hc_t h) S \/ (tb + k < hc_t h)%nat) l.
Definition XV (S : list nat) (k k' : nat) (l : list nat) : Prop := Forall (fun x => In x S \/ (tb + k < x <= tb + k')%nat) l.
Definition TA (l : list hc) : Prop := Forall (fun h => forallb tame (hc_a h) = true) l.
Lemma TG_le S S' k k' l : incl S S' -> (k <= k')%nat -> TG S k' l -> TG S' k l.
Proof. intros H1 H2. apply Forall_impl. intros h [H|H]; [left; auto|right; lia]. Qed.
Lemma XV_le S S' k1 k1' k2 k2' l : incl S S' -> (k2 <= k1)%nat -> (k1' <= k2')%nat -> XV S k1 k1' l -> XV S' k2 k2' l.
Proof. intros H1 H2 H3. apply Forall_impl. intros h [H|H]; [left; auto|right; lia]. Qed.
Ltac rw E := first [rewrite lift_eq in E|rewrite lifts_eq in E]; cbv beta iota in E.
Ltac is_eqn a := match type of a with _ = _ => idtac end.
Ltac is_zz a := match type of a with Z => idtac end.
Ltac dl e k := destruct (lift e k) as [[? ?] ?] eqn:?.
Lemma lift_facts :
  (forall e k cs r k', lift e k = (cs, r, k') ->
     (k <= k')%nat /\ TG (ysets e) k cs /\ XV (reads e) k k' (xvars r) /\ (nocall e = true -> cs = [] /\ k' = k)) /\
  (forall l k cs r k', lifts l k = (cs, r, k') ->
     (k <= k')%nat /\ TG (ysetss l) k cs /\ (nocalls l = true -> cs = [] /\ k' = k)).
Proof.
  assert (one : forall (e : ye) k0 (cs0 : list hc) (r : xe) k', (k0 <= k')%nat /\ TG (ysets e) k0 cs0 /\ XV (reads e) k0 k' (xvars r) /\ (nocall e = true -> cs0 = [] /\ k' = k0) ->
    (k0 <= k')%nat /\ TG (ysets e) k0 cs0 /\ XV (reads e) k0 k' (xvars r) /\ (nocall e = true -> cs0 = [] /\ k' = k0)) by auto.
  apply ye_yes_ind; cbn [ysets reads nocall ysetss nocalls].
  1: { intros e k cs r k' E; rw E. inversion E; subst. split; [lia|]. split; [constructor|]. split; [|auto].
       apply Forall_forall. auto. }
  1-6: first [intros a IHa k cs r k' E; rw E; is_eqn E|intros op a IHa k cs r k' E; rw E; is_zz op|intros a IHa m k cs r k' E; rw E]; match type of E with context [lift ?a ?k] => destruct (lift a k) as [[c0 r0] k0] eqn:L end;
       destruct (IHa _ _ _ _ L) as (F1 & F2 & F3 & F4);
       match goal with H : (_, _, _) = (_, _, _) |- _ => inversion H; subst; clear H end; cbn [xvars]; auto.
  1-3: first [intros a IHa b IHb k cs r k' E; rw E; is_eqn E|intros op a IHa b IHb k cs r k' E; rw E]; match type of E with context [lift ?a ?k] => destruct (lift a k) as [[c0 r0] k0] eqn:L end;
       match type of E with context [lift ?b ?k] => destruct (lift b k) as [[c1 r1] k1] eqn:L1 end;
       destruct (IHa _ _ _ _ L) as (F1 & F2 & F3 & F4);
       destruct (IHb _ _ _ _ L1) as (G1 & G2 & G3 & G4);
       match goal with H : (_, _, _) = (_, _, _) |- _ => inversion H; subst; clear H end; cbn [xvars];
       (split; [lia|]; split;
         [apply Forall_app; split; [refine (TG_le _ _ _ _ _ (incl_appl _ (incl_refl _)) _ F2); lia|refine (TG_le _ _ _ _ _ (incl_appr _ (incl_refl _)) _ G2); lia]|split;
         [apply Forall_app; split; [refine (XV_le _ _ _ _ _ _ _ (incl_appl _ (incl_refl _)) _ _ F3); lia|refine (XV_le _ _ _ _ _ _ _ (incl_appr _ (incl_refl _)) _ _ G3); lia]|
          intros N; apply andb_true_iff in N; destruct N as [N1 N2]; destruct (F4 N1) as [-> ->]; destruct (G4 N2) as [-> ->]; auto]]).
  - intros t IH a b k cs r k' E; rw E. destruct (lift t k) as [[c0 r0] k0] eqn:L. destruct (IH _ _ _ _ L) as (F1 & F2 & F3 & F4).
    inversion E; subst. cbn [xvars]. split; [lia|]. split; [exact F2|]. split; [|exact F4].
    apply Forall_app. split; [refine (XV_le _ _ _ _ _ _ _ (incl_appl _ (incl_refl _)) _ _ F3); lia|].
    apply Forall_forall. intros x Hx. left. apply in_or_app. right. exact Hx.
  - intros f l IH k cs r k' E; rw E. destruct (lifts l k) as [[c0 r0] k0] eqn:L. destruct (IH _ _ _ _ L) as (F1 & F2 & F3).
    inversion E; subst. split; [lia|]. split; [|split; [|discriminate]].
    + apply Forall_app. split; [exact F2|]. constructor; [|constructor]. right. cbn [hc_t]. lia.
    + cbn [xvars]. constructor; [|constructor]. right. lia.
  - intros x f l IH k cs r k' E; rw E. destruct (lifts l k) as [[c0 r0] k0] eqn:L. destruct (IH _ _ _ _ L) as (F1 & F2 & F3).
    inversion E; subst. split; [lia|]. split; [|split; [|discriminate]].
    + apply Forall_app. split; [refine (TG_le _ _ _ _ _ (incl_tl _ (incl_refl _)) _ F2); lia|]. constructor; [|constructor]. left. left. reflexivity.
    + cbn [xvars]. constructor; [|constructor]. left. left. reflexivity.
  - intros k cs r k' E; rw E. inversion E; subst. split; [lia|]. split; [constructor|auto].
  - intros a IHa l IHl k cs r k' E; rw E. destruct (lift a k) as [[c0 r0] k0] eqn:L. destruct (lifts l k0) as [[c1 r1] k1] eqn:L1.
    destruct (IHa _ _ _ _ L) as (F1 & F2 & F3 & F4). destruct (IHl _ _ _ _ L1) as (G1 & G2 & G3). inversion E; subst.
    split; [lia|]. split.
    + apply Forall_app; split; [refine (TG_le _ _ _ _ _ (incl_appl _ (incl_refl _)) _ F2); lia|refine (TG_le _ _ _ _ _ (incl_appr _ (incl_refl _)) _ G2); lia].
    + intros N; apply andb_true_iff in N; destruct N as [N1 N2]; destruct (F4 N1) as [-> ->]; destruct (G3 N2) as [-> ->]; auto.
Qed.
(* pure expressions: what is left is tame, and so are the arguments of the calls *)
Variable own : nat -> bool.
Lemma lift_tame :
  (forall e k cs r k', lift e k = (cs, r, k') -> pure own e = true -> TA cs /\ tame r = true) /\
  (forall l k cs r k', lifts l k = (cs, r, k') -> pures own l = true -> TA cs /\ forallb tame r = true).
Proof.
  apply ye_yes_ind; cbn [pure pures].
  1: { intros e k cs r k' E T; rw E. inversion E; subst. split; [constructor|exact T]. }
  1-6: first [intros a IHa k cs r k' E T; rw E; is_eqn E|intros op a IHa k cs r k' E T; rw E; is_zz op|intros a IHa m k cs r k' E T; rw E]; match type of E with context [lift ?a ?k] => destruct (lift a k) as [[c0 r0] k0] eqn:L end;
       destruct (IHa _ _ _ _ L ltac:(assumption)) as (F1 & F2);
       match goal with H : (_, _, _) = (_, _, _) |- _ => inversion H; subst; clear H end; cbn [tame]; auto.
  1-3: first [intros a IHa b IHb k cs r k' E T; rw E; is_eqn E|intros op a IHa b IHb k cs r k' E T; rw E]; match type of E with context [lift ?a ?k] => destruct (lift a k) as [[c0 r0] k0] eqn:L end;
       match type of E with context [lift ?b ?k] => destruct (lift b k) as [[c1 r1] k1] eqn:L1 end;
       match goal with H : _ = true |- _ => rewrite !andb_true_iff in H; decompose [and] H; clear H end;
       destruct (IHa _ _ _ _ L ltac:(assumption)) as (F1 & F2);
       destruct (IHb _ _ _ _ L1 ltac:(assumption)) as (G1 & G2);
       match goal with H : (_, _, _) = (_, _, _) |- _ => inversion H; subst; clear H end;
       (split; [apply Forall_app; auto|cbn [tame]; rewrite ?F2, ?G2]); try reflexivity.
  - repeat match goal with H : negb (op =? _) = true |- _ => apply negb_true_iff in H; rewrite H; clear H end. reflexivity.
  - intros t IH a b k cs r k' E T; rw E. destruct (lift t k) as [[c0 r0] k0] eqn:L. rewrite !andb_true_iff in T. decompose [and] T. clear T.
    destruct (IH _ _ _ _ L ltac:(assumption)) as [F1 F2]. inversion E; subst. split; [exact F1|]. cbn [tame]. rewrite F2. repeat match goal with H : _ = true |- _ => rewrite H; clear H end. reflexivity.
  - intros f l IH k cs r k' E T; rw E. destruct (lifts l k) as [[c0 r0] k0] eqn:L. destruct (IH _ _ _ _ L T) as [F1 F2].
    inversion E; subst. split; [|reflexivity]. apply Forall_app. split; [exact F1|]. constructor; [exact F2|constructor].
  - intros x f l IH k cs r k' E T; rw E. destruct (lifts l k) as [[c0 r0] k0] eqn:L. destruct (IH _ _ _ _ L T) as [F1 F2].
    inversion E; subst. split; [|reflexivity]. apply Forall_app. split; [exact F1|]. constructor; [exact F2|constructor].
  - intros k cs r k' E _; rw E. inversion E; subst. split; [constructor|reflexivity].
  - intros a IHa l IHl k cs r k' E T; rw E. destruct (lift a k) as [[c0 r0] k0] eqn:L. destruct (lifts l k0) as [[c1 r1] k1] eqn:L1.
    rewrite !andb_true_iff in T. decompose [and] T. clear T.
    destruct (IHa _ _ _ _ L ltac:(assumption)) as (F1 & F2). destruct (IHl _ _ _ _ L1 ltac:(assumption)) as (G1 & G2). inversion E; subst.
    split; [apply Forall_app; auto|]. cbn [forallb]. rewrite F2, G2. reflexivity.
Qed.
(* what can wait for a call *)
Lemma still_facts : forall e k cs r k', lift e k = (cs, r, k') -> still own e = true -> nomem r = true /\ forallb own (reads e) = true.
Proof.
  assert (X : forall e, stillx own e = true -> nomem e = true /\ forallb own (xvars e) = true) by (intros e H; apply andb_true_iff; exact H).
  induction e as [e|a IHa|a IHa|a IHa|op a IHa|a IHa|a IHa m|a IHa b IHb|op a IHa b IHb|a IHa b IHb|t IHt a b|f l|x f l];
    cbn [still reads]; intros k cs r k' E T; rw E; try discriminate.
  1: { inversion E; subst. auto. }
  1-4: match type of E with context [lift ?a ?k] => destruct (lift a k) as [[c0 r0] k0] eqn:L end;
       destruct (IHa _ _ _ _ L T); inversion E; subst; auto.
  1-2: match type of E with context [lift ?a ?k] => destruct (lift a k) as [[c0 r0] k0] eqn:L end;
       match type of E with context [lift ?b ?k] => destruct (lift b k) as [[c1 r1] k1] eqn:L1 end;
       apply andb_true_iff in T; destruct T as [T1 T2]; destruct (IHa _ _ _ _ L T1) as [F1 F2]; destruct (IHb _ _ _ _ L1 T2) as [G1 G2]; inversion E; subst;
       cbn [nomem]; rewrite F1, G1, forallb_app, F2, G2; auto.
  - destruct (lift t k) as [[c0 r0] k0] eqn:L. rewrite !andb_true_iff in T. destruct T as [[T1 T2] T3]. destruct (IHt _ _ _ _ L T1) as [F1 F2].
    destruct (X _ T2) as [A1 A2]. destruct (X _ T3) as [B1 B2]. inversion E; subst. cbn [nomem]. rewrite F1, A1, B1, !forallb_app, F2, A2, B2. auto.
  - destruct (lifts l k) as [[c0 r0] k0]. inversion E; subst. auto.
  - destruct (lifts l k) as [[c0 r0] k0]. inversion E; subst. cbn [nomem forallb]. rewrite T. auto.
Qed.
End Facts.
