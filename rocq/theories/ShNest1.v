(** * Expressions without calls: stores that differ in temporaries, what is written, tame expressions *)
From Coq Require Import ZArith List Lia Bool.
From Verif Require Import Base Ast Parse ShArith ShExpr ShCSem ShEqs ShSem ShStmt ShProg ShProg2 ShNest.
Import ListNotations.
Open Scope Z_scope.
Local Notation length := List.length.

Section Ag.
Variables (moff zsz : nat -> Z).
Notation cev := (cev moff zsz). Notation clv := (clv moff zsz).
Notation hst := (hst moff zsz). Notation hlv := (hlv moff zsz). Notation had := (had moff zsz).
Notation hz := (hz moff zsz). Notation zlv := (zlv moff zsz). Notation zad := (zad moff zsz).
Variable D : nat -> Prop.                                     (* the variables that matter *)
Definition inD (l : loc) : Prop := match l with LV x => D x | LC _ => True end.
Definition agr (s t : store) : Prop := forall l, inD l -> s l = t l.
Definition rag {A} (r r' : option (A * store * list loc * list loc)) : Prop :=
  match r, r' with
  | Some (v, s, R, W), Some (v', s', R', W') => v = v' /\ R = R' /\ W = W' /\ agr s s'
  | None, None => True
  | _, _ => False
  end.
Lemma agr_upd l v s t : agr s t -> agr (upd l v s) (upd l v t).
Proof. intros H m Hm. unfold upd. destruct (loc_eq_dec m l); [reflexivity|apply H; exact Hm]. Qed.
Ltac dr r := destruct r as [[[[? ?] ?] ?]|].
Ltac rg H := cbn [rag] in H; try contradiction; try (destruct H as (-> & -> & -> & H)).
Lemma rag_pair ra ra' rb rb' f : rag ra ra' -> (forall s t, agr s t -> rag (rb s) (rb' t)) -> rag (cpair ra rb f) (cpair ra' rb' f).
Proof.
  intros Ha Hb. unfold cpair. dr ra; dr ra'; rg Ha; [|exact Logic.I]. specialize (Hb _ _ Ha).
  match goal with |- context [rb ?s] => dr (rb s) end; match goal with |- context [rb' ?s] => dr (rb' s) end; rg Hb; [|exact Logic.I].
  destruct (race _ _ _ _); [exact Logic.I|]. destruct (f _ _); [|exact Logic.I]. cbn [rag]. auto.
Qed.
Lemma rag_then ra ra' k k' : rag ra ra' -> (forall v s t, agr s t -> rag (k v s) (k' v t)) -> rag (ShCSem.cthen ra k) (ShCSem.cthen ra' k').
Proof.
  intros Ha Hb. unfold ShCSem.cthen. dr ra; dr ra'; rg Ha; [|exact Logic.I].
  match goal with |- context [k ?v ?s] => specialize (Hb v _ _ Ha); dr (k v s) end; match goal with |- context [k' ?v ?s] => dr (k' v s) end; rg Hb;
    [|exact Logic.I]. cbn [rag]. auto.
Qed.
Lemma rag_map ra ra' f : rag ra ra' -> rag (cmap ra f) (cmap ra' f).
Proof. intros H. unfold cmap. dr ra; dr ra'; rg H; [|exact Logic.I]. destruct (f _); cbn [rag]; auto. Qed.
Lemma rag_at ra ra' : rag ra ra' -> rag (at_addr ra) (at_addr ra').
Proof. intros H. unfold at_addr. dr ra; dr ra'; rg H; [|exact Logic.I]. destruct (0 <=? _); cbn [rag]; auto. Qed.
(* the locations found are among those that matter *)
Definition ldom (r : lres) : Prop := match r with Some (l, _, _, _) => inD l | None => True end.
Lemma ldom_at ra : ldom (at_addr ra).
Proof. unfold at_addr. dr ra; [|exact Logic.I]. destruct (0 <=? _); exact Logic.I. Qed.
Lemma rag_load ra ra' : rag ra ra' -> ldom ra -> rag (load ra) (load ra').
Proof.
  intros H L. unfold load. dr ra; dr ra'; rg H; [|exact Logic.I]. destruct (mem _ _); [exact Logic.I|]. cbn [rag].
  split; [apply H; exact L|auto].
Qed.
Lemma rag_modify ra ra' f p : rag ra ra' -> ldom ra -> rag (modify ra f p) (modify ra' f p).
Proof.
  intros H L. unfold modify. dr ra; dr ra'; rg H; [|exact Logic.I]. destruct (mem _ _); [exact Logic.I|].
  rewrite (H _ L). destruct (f _); [|exact Logic.I]. cbn [rag]. auto using agr_upd.
Qed.
Lemma rag_refl {A} (v : A) s t R W : agr s t -> rag (Some (v, s, R, W)) (Some (v, t, R, W)).
Proof. cbn [rag]. auto. Qed.
Definition allD (l : list nat) : Prop := forall x, In x l -> D x.
Lemma allD_app a b : allD (a ++ b) -> allD a /\ allD b.
Proof. intros H. split; intros x Hx; apply H, in_or_app; auto. Qed.

Lemma clv_dom e s : allD (xvars e) -> ldom (clv e s).
Proof.
  induction e; intros H; rewrite clv_eq; cbv beta iota; try exact Logic.I; try apply ldom_at.
  - apply H. left. reflexivity.
  - apply IHe. exact H.
Qed.
Lemma cev_ag e : allD (xvars e) -> (forall s t, agr s t -> rag (cev e s) (cev e t)) /\ (forall s t, agr s t -> rag (clv e s) (clv e t)).
Proof.
  induction e; cbn [xvars]; intros HD;
    repeat match goal with H : allD (_ ++ _) |- _ => apply allD_app in H; destruct H end;
    repeat match goal with IH : allD ?a -> _, H : allD ?a |- _ => specialize (IH H); destruct IH end;
    (split; intros s t A; [rewrite (cev_eq _ _ _ s), (cev_eq _ _ _ t)|rewrite (clv_eq _ _ _ s), (clv_eq _ _ _ t)]; cbv beta iota);
    try exact Logic.I; try (apply rag_refl; exact A); auto.
  all: try (apply rag_load; [|apply ldom_at]); try apply rag_at; try apply rag_map; auto; try (apply rag_pair; auto; fail).
  - cbn [rag]. rewrite (A (LV x)) by (apply HD; left; reflexivity). auto.
  - apply rag_modify; auto. apply clv_dom. exact HD.
  - apply rag_modify; auto. apply clv_dom. exact HD.
  - match goal with K : forall s t, agr s t -> rag (clv e s) (clv e t) |- _ => specialize (K _ _ A) end.
    dr (clv e s); dr (clv e t); rg H0; [|exact Logic.I]. match goal with |- context [match ?l with LV _ => _ | LC _ => _ end] => destruct l end; cbn [rag]; auto.
  - destruct (op =? AMP_AMP); [|destruct (op =? BAR_BAR)].
    + apply rag_then; auto. intros v s1 t1 A1. destruct (v =? 0); [apply rag_refl; exact A1|apply rag_map; auto].
    + apply rag_then; auto. intros v s1 t1 A1. destruct (v =? 0); [apply rag_map; auto|apply rag_refl; exact A1].
    + apply rag_pair; auto.
  - apply rag_then; auto.
  - pose proof (clv_dom e1 s H) as LD.
    match goal with K : forall s t, agr s t -> rag (clv e1 s) (clv e1 t) |- _ => pose proof (K _ _ A) as K1 end.
    dr (clv e1 s); dr (clv e1 t); cbn [rag ldom] in K1, LD; try contradiction; [|exact Logic.I]. destruct K1 as (-> & -> & -> & A1).
    match goal with K : forall s t, agr s t -> rag (cev e2 s) (cev e2 t) |- _ => pose proof (K _ _ A1) as K2 end.
    match goal with |- context [cev e2 ?u] => dr (cev e2 u) end; match goal with |- context [cev e2 ?u] => dr (cev e2 u) end; cbn [rag] in K2; try contradiction;
      [|exact Logic.I]. destruct K2 as (-> & -> & -> & A2).
    destruct (_ || _); [exact Logic.I|]. destruct (op =? EQ); [cbn [rag]; auto using agr_upd|].
    destruct (asg_op op); [|exact Logic.I]. rewrite (A2 _ LD). destruct (carith _ _ _); [|exact Logic.I]. cbn [rag]. auto using agr_upd.
  - apply rag_then; auto. intros v s1 t1 A1. destruct (v =? 0); auto.
Qed.
Lemma hall_ag r r' h : rag r r' -> hall r h = hall r' h.
Proof. intros H. unfold hall. dr r; dr r'; rg H; reflexivity. Qed.
Lemma pure_ag r r' h : rag r r' -> ShCSem.pure r h = ShCSem.pure r' h.
Proof. intros H. unfold ShCSem.pure. dr r; dr r'; rg H; reflexivity. Qed.
Lemma hst_ag e : allD (xvars e) -> forall s t, agr s t ->
  hst e s = hst e t /\ hlv e s = hlv e t /\ had e s = had e t /\ hz e s = hz e t /\ zlv e s = zlv e t /\ zad e s = zad e t.
Proof.
  induction e; cbn [xvars]; intros HD s t A;
    repeat match goal with H : allD (_ ++ _) |- _ => apply allD_app in H; destruct H end;
    match goal with |- hst ?X s = _ /\ _ => rewrite (hst_eq moff zsz X s), (hst_eq moff zsz X t), (hlv_eq moff zsz X s), (hlv_eq moff zsz X t), (had_eq moff zsz X s), (had_eq moff zsz X t), (hz_eq moff zsz X s), (hz_eq moff zsz X t), (zlv_eq moff zsz X s), (zlv_eq moff zsz X t), (zad_eq moff zsz X s), (zad_eq moff zsz X t) end; cbv beta iota;
    try (repeat split; reflexivity).
  all: try (destruct (IHe HD s t A) as (E1 & E2 & E3 & E4 & E5 & E6); destruct (cev_ag e HD) as [C1 C2];
    rewrite <- ?E1, <- ?E2, <- ?E3, <- ?E4, <- ?E5, <- ?E6, <- ?(hall_ag _ _ _ (C1 _ _ A)), <- ?(pure_ag _ _ _ (C1 _ _ A)),
      <- ?(pure_ag _ _ _ (rag_map _ _ _ (C1 _ _ A))); repeat split; reflexivity).
  - (* Idx *) destruct (IHe1 H s t A) as (E1 & E2 & E3 & E4 & E5 & E6). destruct (IHe2 H0 s t A) as (G1 & G2 & G3 & G4 & G5 & G6).
    destruct (cev_ag e1 H) as [C1 _]. destruct (cev_ag e2 H0) as [C2 _]. pose proof (C1 _ _ A) as K.
    pose proof (rag_pair _ _ _ _ (carith PLUS) K C2) as KP.
    dr (cev e1 s); dr (cev e1 t); cbn [rag] in K; try contradiction; [|rewrite <- E4, <- G4; repeat split; reflexivity].
    destruct K as (-> & -> & -> & A1). destruct (IHe2 H0 _ _ A1) as (F1 & _ & _ & _ & _ & _).
    rewrite <- E1, <- F1, <- E4, <- G4, <- (hall_ag _ _ _ KP), <- (pure_ag _ _ _ KP). repeat split; reflexivity.
  - (* Bin *) destruct (IHe1 H s t A) as (E1 & E2 & E3 & E4 & E5 & E6). destruct (IHe2 H0 s t A) as (G1 & G2 & G3 & G4 & G5 & G6).
    destruct (cev_ag e1 H) as [C1 _]. pose proof (C1 _ _ A) as K. rewrite <- E4, <- G4.
    dr (cev e1 s); dr (cev e1 t); cbn [rag] in K; try contradiction; [|repeat split; reflexivity].
    destruct K as (-> & -> & -> & A1). destruct (IHe2 H0 _ _ A1) as (F1 & _ & _ & F4 & _ & _). rewrite <- E1, <- F1, <- F4. repeat split; reflexivity.
  - (* Comma *) destruct (IHe1 H s t A) as (E1 & E2 & E3 & E4 & E5 & E6). destruct (IHe2 H0 s t A) as (G1 & G2 & G3 & G4 & G5 & G6).
    destruct (cev_ag e1 H) as [C1 _]. pose proof (C1 _ _ A) as K. rewrite <- E4, <- G4.
    dr (cev e1 s); dr (cev e1 t); cbn [rag] in K; try contradiction; [|repeat split; reflexivity].
    destruct K as (-> & -> & -> & A1). destruct (IHe2 H0 _ _ A1) as (F1 & _ & _ & F4 & _ & _). rewrite <- E1, <- F1. repeat split; reflexivity.
  - (* Asg *) destruct (IHe1 H s t A) as (E1 & E2 & E3 & E4 & E5 & E6). destruct (IHe2 H0 s t A) as (G1 & G2 & G3 & G4 & G5 & G6).
    destruct (cev_ag e1 H) as [_ C1]. pose proof (C1 _ _ A) as K. rewrite <- E5, <- G4.
    dr (clv e1 s); dr (clv e1 t); cbn [rag] in K; try contradiction; [|repeat split; reflexivity].
    destruct K as (-> & -> & -> & A1). destruct (IHe2 H0 _ _ A1) as (F1 & _ & _ & F4 & _ & _). rewrite <- E2, <- F1. repeat split; reflexivity.
  - (* Cond *) destruct (IHe1 H s t A) as (E1 & E2 & E3 & E4 & E5 & E6). destruct (IHe2 H0 s t A) as (G1 & G2 & G3 & G4 & G5 & G6).
    destruct (IHe3 H1 s t A) as (J1 & J2 & J3 & J4 & J5 & J6).
    destruct (cev_ag e1 H) as [C1 _]. pose proof (C1 _ _ A) as K. rewrite <- E4, <- G4, <- J4.
    dr (cev e1 s); dr (cev e1 t); cbn [rag] in K; try contradiction; [|repeat split; reflexivity].
    destruct K as (-> & -> & -> & A1). destruct (IHe2 H0 _ _ A1) as (F1 & _ & _ & F4 & _ & _). destruct (IHe3 H1 _ _ A1) as (L1 & _ & _ & L4 & _ & _).
    rewrite <- E1, <- F1, <- F4, <- L1.
    destruct (cev_ag e2 H0) as [C2 _]. pose proof (C2 _ _ A1) as K2.
    match goal with |- context [cev e2 ?u] => dr (cev e2 u) end; match goal with |- context [cev e2 ?u] => dr (cev e2 u) end; cbn [rag] in K2;
      try contradiction; [|repeat split; reflexivity].
    destruct K2 as (-> & -> & -> & A2). destruct (IHe3 H1 _ _ A2) as (_ & _ & _ & M4 & _ & _). rewrite <- M4. repeat split; reflexivity.
Qed.
Lemma cval_ag q e s t : allD (xvars e) -> agr s t -> rag (cval moff zsz q e s) (cval moff zsz q e t).
Proof.
  intros HD A. unfold cval. pose proof (proj1 (cev_ag e HD) _ _ A) as K. pose proof (proj1 (hst_ag e HD _ _ A)) as E.
  dr (cev e s); dr (cev e t); cbn [rag] in K; try contradiction; [|exact Logic.I]. rewrite <- E. destruct q; [|exact K]. destruct (hst e s); [exact K|exact Logic.I].
Qed.
Lemma clval_ag q e s t : allD (xvars e) -> agr s t -> rag (clval moff zsz q e s) (clval moff zsz q e t).
Proof.
  intros HD A. unfold clval. pose proof (proj2 (cev_ag e HD) _ _ A) as K. pose proof (proj1 (proj2 (hst_ag e HD _ _ A))) as E.
  dr (clv e s); dr (clv e t); cbn [rag] in K; try contradiction; [|exact Logic.I]. rewrite <- E. destruct q; [|exact K]. destruct (hlv e s); [exact K|exact Logic.I].
Qed.
Lemma clval_dom q e s : allD (xvars e) -> ldom (clval moff zsz q e s).
Proof.
  intros HD. pose proof (clv_dom e s HD) as K. unfold clval. dr (clv e s); [|exact Logic.I]. destruct q; [|exact K]. destruct (hlv e s); [exact K|exact Logic.I].
Qed.

(** ** What is written *)
Definition wdom {A} (r : option (A * store * list loc * list loc)) : Prop :=
  match r with Some (_, _, _, W) => Forall inD W | None => True end.
Lemma wdom_pair ra rb f : wdom ra -> (forall s, wdom (rb s)) -> wdom (cpair ra rb f).
Proof.
  intros Ha Hb. unfold cpair. dr ra; [|exact Logic.I]. match goal with |- context [rb ?s] => specialize (Hb s); dr (rb s) end; [|exact Logic.I].
  destruct (race _ _ _ _); [exact Logic.I|]. destruct (f _ _); [|exact Logic.I]. cbn [wdom] in *. apply Forall_app. auto.
Qed.
Lemma wdom_then ra k : wdom ra -> (forall v s, wdom (k v s)) -> wdom (ShCSem.cthen ra k).
Proof.
  intros Ha Hb. unfold ShCSem.cthen. dr ra; [|exact Logic.I]. match goal with |- context [k ?v ?s] => specialize (Hb v s); dr (k v s) end; [|exact Logic.I].
  cbn [wdom] in *. apply Forall_app. auto.
Qed.
Lemma wdom_map ra f : wdom ra -> wdom (cmap ra f).
Proof. intros H. unfold cmap. dr ra; [|exact Logic.I]. destruct (f _); [exact H|exact Logic.I]. Qed.
Lemma wdom_at ra : wdom ra -> wdom (at_addr ra).
Proof. intros H. unfold at_addr. dr ra; [|exact Logic.I]. destruct (0 <=? _); [exact H|exact Logic.I]. Qed.
Lemma wdom_load ra : wdom ra -> wdom (load ra).
Proof. intros H. unfold load. dr ra; [|exact Logic.I]. destruct (mem _ _); [exact Logic.I|exact H]. Qed.
Lemma wdom_modify ra f p : wdom ra -> ldom ra -> wdom (modify ra f p).
Proof.
  intros H L. unfold modify. dr ra; [|exact Logic.I]. destruct (mem _ _); [exact Logic.I|]. destruct (f _); [|exact Logic.I].
  cbn [wdom] in *. constructor; assumption.
Qed.
Lemma cev_wdom e : allD (xvars e) -> (forall s, wdom (cev e s)) /\ (forall s, wdom (clv e s)).
Proof.
  induction e; cbn [xvars]; intros HD;
    repeat match goal with H : allD (_ ++ _) |- _ => apply allD_app in H; destruct H end;
    repeat match goal with IH : allD ?a -> _, H : allD ?a |- _ => specialize (IH H); destruct IH end;
    (split; intros s; [rewrite cev_eq|rewrite clv_eq]; cbv beta iota); try exact Logic.I; try (constructor; fail); auto.
  all: try apply wdom_load; try apply wdom_at; try apply wdom_map; auto; try (apply wdom_pair; auto; fail).
  - apply wdom_modify; auto. apply clv_dom. exact HD.
  - apply wdom_modify; auto. apply clv_dom. exact HD.
  - match goal with K : forall s, wdom (clv e s) |- _ => specialize (K s) end. dr (clv e s); [|exact Logic.I].
    match goal with |- context [match ?l with LV _ => _ | LC _ => _ end] => destruct l end; [exact Logic.I|assumption].
  - destruct (op =? AMP_AMP); [|destruct (op =? BAR_BAR)].
    + apply wdom_then; auto. intros v s1. destruct (v =? 0); [constructor|apply wdom_map; auto].
    + apply wdom_then; auto. intros v s1. destruct (v =? 0); [apply wdom_map; auto|constructor].
    + apply wdom_pair; auto.
  - apply wdom_then; auto.
  - pose proof (clv_dom e1 s H) as LD.
    match goal with K : forall s, wdom (clv e1 s) |- _ => specialize (K s) end. dr (clv e1 s); [|exact Logic.I].
    match goal with |- context [cev e2 ?u] => match goal with K : forall s, wdom (cev e2 s) |- _ => specialize (K u) end; dr (cev e2 u) end; [|exact Logic.I].
    cbn [wdom ldom] in *. destruct (_ || _); [exact Logic.I|].
    destruct (op =? EQ); [cbn [wdom]; constructor; [exact LD|apply Forall_app; auto]|].
    destruct (asg_op op); [|exact Logic.I]. destruct (carith _ _ _); [|exact Logic.I].
    cbn [wdom]; constructor; [exact LD|apply Forall_app; auto].
  - apply wdom_then; auto. intros v s1. destruct (v =? 0); auto.
Qed.
End Ag.

(** ** Without effects *)
Section Pure.
Variables (moff zsz : nat -> Z).
Notation cev := (cev moff zsz). Notation clv := (clv moff zsz).
Notation hst := (hst moff zsz). Notation hlv := (hlv moff zsz). Notation had := (had moff zsz).
Notation hz := (hz moff zsz).
Ltac dr r := destruct r as [[[[? ?] ?] ?]|].
Definition pw {A} (s : store) (r : option (A * store * list loc * list loc)) : Prop :=
  match r with Some (_, s', _, W) => s' = s /\ W = [] | None => True end.
Lemma pw_pair s ra rb f : pw s ra -> pw s (rb s) -> pw s (cpair ra rb f).
Proof.
  intros Ha Hb. unfold cpair. dr ra; [|exact Logic.I]. destruct Ha as [-> ->]. dr (rb s); [|exact Logic.I]. destruct Hb as [-> ->].
  destruct (race _ _ _ _); [exact Logic.I|]. destruct (f _ _); [|exact Logic.I]. split; reflexivity.
Qed.
Lemma pw_then s ra k : pw s ra -> (forall v, pw s (k v s)) -> pw s (ShCSem.cthen ra k).
Proof.
  intros Ha Hb. unfold ShCSem.cthen. dr ra; [|exact Logic.I]. destruct Ha as [-> ->].
  match goal with |- context [k ?v s] => specialize (Hb v); dr (k v s) end; [|exact Logic.I]. destruct Hb as [-> ->]. split; reflexivity.
Qed.
Lemma pw_map s ra f : pw s ra -> pw s (cmap ra f).
Proof. intros H. unfold cmap. dr ra; [|exact Logic.I]. destruct (f _); [exact H|exact Logic.I]. Qed.
Lemma pw_at s ra : pw s ra -> pw s (at_addr ra).
Proof. intros H. unfold at_addr. dr ra; [|exact Logic.I]. destruct (0 <=? _); [exact H|exact Logic.I]. Qed.
Lemma pw_load s ra : pw s ra -> pw s (load ra).
Proof. intros H. unfold load. dr ra; [|exact Logic.I]. destruct (mem _ _); [exact Logic.I|exact H]. Qed.
Lemma pw_ret {A} (v : A) s R : pw s (Some (v, s, R, [])).
Proof. split; reflexivity. Qed.
Lemma noeff_pw e : noeff e = true -> forall s, pw s (cev e s) /\ pw s (clv e s).
Proof.
  induction e; cbn [noeff]; intros Hn s; rewrite ?andb_true_iff in Hn; try discriminate;
    repeat match goal with H : _ /\ _ |- _ => destruct H end;
    repeat match goal with IH : ?a = true -> _, H : ?a = true |- _ => specialize (IH H s); destruct IH end;
    (split; [rewrite cev_eq|rewrite clv_eq]; cbv beta iota); try apply pw_ret; try exact Logic.I; auto.
  all: try apply pw_load; try apply pw_at; try apply pw_map; auto; try (apply pw_pair; auto; fail); try (apply pw_then; auto; fail).
  - dr (clv e s); [|exact Logic.I]. match goal with |- context [match ?l with LV _ => _ | LC _ => _ end] => destruct l end; [exact Logic.I|assumption].
  - destruct (op =? AMP_AMP); [|destruct (op =? BAR_BAR)].
    + apply pw_then; auto. intros v. destruct (v =? 0); [apply pw_ret|apply pw_map; auto].
    + apply pw_then; auto. intros v. destruct (v =? 0); [apply pw_map; auto|apply pw_ret].
    + apply pw_pair; auto.
  - apply pw_then; auto. intros v. destruct (v =? 0); auto.
Qed.
Lemma nomem_hz e : nomem e = true -> forall s, hz e s = Some [].
Proof.
  induction e; cbn [nomem]; intros Hn s; rewrite ?andb_true_iff in Hn; try discriminate; rewrite hz_eq; cbv beta iota;
    repeat match goal with H : _ /\ _ |- _ => destruct H end;
    repeat match goal with IH : ?a = true -> _, H : ?a = true |- _ => specialize (IH H s) end; try reflexivity; auto.
  - rewrite IHe1, IHe2. reflexivity.
  - rewrite IHe1, IHe2. reflexivity.
  - rewrite IHe1, IHe2, IHe3. reflexivity.
Qed.
Lemma tame_noeff e : tame e = true -> noeff e = true.
Proof.
  induction e; cbn [tame noeff]; intros H; rewrite ?andb_true_iff in *; try discriminate; auto; try tauto.
  destruct e; try discriminate; cbn [noeff tame] in *; rewrite ?andb_true_iff in *; auto.
Qed.
Lemma disj_nil A : disj A [] = true.
Proof. unfold disj. apply forallb_forall. reflexivity. Qed.
Lemma hseq_pure Ra a b Ha Hb : a = Some (Ha, []) -> b = Some (Hb, []) -> ShCSem.hseq Ra [] a b = Some (Ha ++ Hb, []).
Proof. intros -> ->. unfold ShCSem.hseq. rewrite disj_nil. reflexivity. Qed.
Lemma cpair_inv ra rb f x : cpair ra rb f = Some x -> exists va sa Ra Wa, ra = Some (va, sa, Ra, Wa) /\ rb sa <> None.
Proof.
  unfold cpair. dr ra; [|discriminate]. intros E. do 4 eexists. split; [reflexivity|].
  match goal with |- context [rb ?s] => destruct (rb s) end; discriminate.
Qed.
Lemma at_inv ra x : at_addr ra = Some x -> ra <> None.
Proof. unfold at_addr. dr ra; [discriminate|]. congruence. Qed.
Lemma load_inv ra x : load ra = Some x -> ra <> None.
Proof. unfold load. dr ra; [discriminate|]. congruence. Qed.
Lemma cmap_inv ra f x : cmap ra f = Some x -> ra <> None.
Proof. unfold cmap. dr ra; [discriminate|]. congruence. Qed.
Lemma tame_hst e : tame e = true -> forall s, cev e s <> None -> exists H, hst e s = Some (H, []).
Proof.
  assert (ST : forall e s v s1 R W, tame e = true -> cev e s = Some (v, s1, R, W) -> s1 = s /\ W = []).
  { intros e0 s v s1 R W T E. pose proof (proj1 (noeff_pw e0 (tame_noeff e0 T) s)) as K. rewrite E in K. exact K. }
  assert (IDX : forall a b s r, tame a = true -> tame b = true ->
    (forall s, cev a s <> None -> exists H, hst a s = Some (H, [])) -> (forall s, cev b s <> None -> exists H, hst b s = Some (H, [])) ->
    cpair (cev a s) (cev b) (carith PLUS) = Some r ->
    exists v R, cev a s = Some (v, s, R, []) /\ exists Ha Hb, hst a s = Some (Ha, []) /\ hst b s = Some (Hb, []) /\
      exists v2 R2, r = (v2, s, R2, [])).
  { intros a b s r Ta Tb IHa IHb E. pose proof E as E0. destruct (cpair_inv _ _ _ _ E) as (va & sa & Ra & Wa & Ea & Eb).
    destruct (ST _ _ _ _ _ _ Ta Ea) as [-> ->]. exists va, Ra. split; [exact Ea|].
    destruct (IHa s) as [Ha Ha']; [congruence|]. destruct (IHb s Eb) as [Hb Hb']. exists Ha, Hb. split; [exact Ha'|]. split; [exact Hb'|].
    pose proof (pw_pair s _ (cev b) (carith PLUS) (proj1 (noeff_pw a (tame_noeff a Ta) s)) (proj1 (noeff_pw b (tame_noeff b Tb) s))) as K.
    rewrite E0 in K. destruct r as [[[v2 s2] R2] W2]. cbn [pw] in K. destruct K as [-> ->]. eauto. }
  assert (hall_some : forall r h v s1 R H, r = Some (v, s1, R, []) -> h = Some (H, []) -> exists H', hall r h = Some (H', [])).
  { intros r h v s1 R H -> ->. cbn [hall]. eauto. }
  assert (SUB : forall a s, tame a = true -> (forall s, cev a s <> None -> exists H, hst a s = Some (H, [])) -> cev a s <> None ->
     exists H', hall (cev a s) (hst a s) = Some (H', [])).
  { intros a s T IH E. destruct (cev a s) as [[[[v s1] R] W]|] eqn:Ea; [|congruence]. destruct (ST _ _ _ _ _ _ T Ea) as [-> ->].
    destruct (IH s) as [H Hh]; [congruence|]. rewrite Hh. cbn [hall]. eauto. }
  revert e. fix IH 1. intros e. destruct e; cbn [tame]; intros Ht s E; rewrite ?andb_true_iff in Ht; try discriminate; rewrite hst_eq; cbv beta iota;
    rewrite cev_eq in E; cbv beta iota in E; eauto.
  - apply SUB; auto. intros X. rewrite X in E. apply E. reflexivity.
  - destruct Ht as [T1 T2]. destruct (cpair (cev e1 s) (cev e2) (carith PLUS)) as [r|] eqn:Ep; [|exfalso; apply E; reflexivity].
    destruct (IDX _ _ _ _ T1 T2 (IH e1 T1) (IH e2 T2) Ep) as (v & R & Ea & Ha & Hb & H1 & H2 & v2 & R2 & ->).
    rewrite Ea. eapply hall_some; [reflexivity|]. apply hseq_pure; eassumption.
  - apply SUB; auto. intros X. rewrite X in E. apply E. reflexivity.
  - apply IH; auto. intros X. rewrite X in E. apply E. reflexivity.
  - rewrite had_eq. destruct e; try discriminate; cbv beta iota; rewrite clv_eq in E; cbv beta iota in E; rewrite ?andb_true_iff in Ht.
    + destruct Ht as [T1 T2]. destruct (cpair (cev e1 s) (cev e2) (carith PLUS)) as [r|] eqn:Ep; [|exfalso; apply E; reflexivity].
      destruct (IDX _ _ _ _ T1 T2 (IH e1 T1) (IH e2 T2) Ep) as (v & R & Ea & Ha & Hb & H1 & H2 & v2 & R2 & ->).
      rewrite Ea. eexists. apply hseq_pure; eassumption.
    + apply IH; auto. intros X. rewrite X in E. apply E. reflexivity.
  - destruct Ht as [[T1 T2] T3].
    destruct (cev e1 s) as [[[[v s1] R] W]|] eqn:Ea.
    2: { exfalso. apply E. destruct (op =? AMP_AMP); [reflexivity|]. destruct (op =? BAR_BAR); reflexivity. }
    destruct (ST _ _ _ _ _ _ T1 Ea) as [-> ->]. destruct (IH e1 T1 s) as [Ha Hh]; [congruence|]. rewrite Hh.
    destruct (op =? AMP_AMP) eqn:O1; [|destruct (op =? BAR_BAR) eqn:O2]; cbn [orb andb] in *.
    + destruct (v =? 0) eqn:V; [cbn [orb andb]|].
      * rewrite (nomem_hz e2 T3). eexists. apply hseq_pure; reflexivity.
      * replace (op =? BAR_BAR) with false by (symmetry; apply Z.eqb_eq in O1; subst op; reflexivity). cbn [orb andb].
        destruct (IH e2 T2 s) as [Hb Hc]; [|eexists; apply hseq_pure; [reflexivity|exact Hc]].
        intros X. cbn [ShCSem.cthen] in E. rewrite V, X in E. apply E. reflexivity.
    + destruct (v =? 0) eqn:V; cbn [orb andb negb].
      * destruct (IH e2 T2 s) as [Hb Hc]; [|eexists; apply hseq_pure; [reflexivity|exact Hc]].
        intros X. cbn [ShCSem.cthen] in E. rewrite V, X in E. apply E. reflexivity.
      * rewrite (nomem_hz e2 T3). eexists. apply hseq_pure; reflexivity.
    + destruct (IH e2 T2 s) as [Hb Hc]; [|eexists; apply hseq_pure; [reflexivity|exact Hc]].
      intros X. unfold cpair in E. rewrite X in E. apply E. reflexivity.
  - destruct Ht as [T1 T2]. destruct (cev e1 s) as [[[[v s1] R] W]|] eqn:Ea; [|exfalso; apply E; reflexivity].
    destruct (ST _ _ _ _ _ _ T1 Ea) as [-> ->]. destruct (IH e1 T1 s) as [Ha Hh]; [congruence|]. rewrite Hh.
    destruct (IH e2 T2 s) as [Hb Hc]; [|eexists; apply hseq_pure; [reflexivity|exact Hc]].
    intros X. cbn [ShCSem.cthen] in E. rewrite X in E. apply E. reflexivity.
  - destruct Ht as [[[[T1 T2] T3] T4] T5]. destruct (cev e1 s) as [[[[v s1] R] W]|] eqn:Ea; [|exfalso; apply E; reflexivity].
    destruct (ST _ _ _ _ _ _ T1 Ea) as [-> ->]. destruct (IH e1 T1 s) as [Ha Hh]; [congruence|]. rewrite Hh.
    cbn [ShCSem.cthen] in E. rewrite (nomem_hz e2 T4). destruct (v =? 0).
    + destruct (IH e3 T3 s) as [Hb Hc]; [intros X; rewrite X in E; apply E; reflexivity|].
      eexists. apply hseq_pure; [apply hseq_pure; reflexivity|exact Hc].
    + destruct (cev e2 s) as [[[[v2 s2] R2] W2]|] eqn:E2; [|exfalso; apply E; reflexivity].
      destruct (ST _ _ _ _ _ _ T2 E2) as [-> ->]. destruct (IH e2 T2 s) as [Hb Hc]; [congruence|]. rewrite (nomem_hz e3 T5).
      eexists. apply hseq_pure; [apply hseq_pure; [reflexivity|exact Hc]|reflexivity].
Qed.
Lemma tamel_hlv e : tamel e = true -> forall s, clv e s <> None -> exists H, hlv e s = Some (H, []).
Proof.
  intros T s E. assert (X : noeff e = true -> pw s (clv e s)) by (intros N; apply (noeff_pw e N)).
  destruct e; try discriminate; cbn [tamel] in T; rewrite hlv_eq; cbv beta iota; rewrite clv_eq in E, X; cbv beta iota in E, X; [eauto| | |].
  - destruct (cev e s) as [[[[v s1] R] W]|] eqn:Ea; [|exfalso; apply E; reflexivity].
    pose proof (proj1 (noeff_pw e (tame_noeff e T) s)) as K. rewrite Ea in K. destruct K as [-> ->].
    destruct (tame_hst e T s) as [H Hh]; [congruence|]. rewrite Hh. cbn [hall]. eauto.
  - rewrite andb_true_iff in T. destruct T as [T1 T2]. destruct (cpair (cev e1 s) (cev e2) (carith PLUS)) as [r|] eqn:Ep; [|exfalso; apply E; reflexivity].
    pose proof (pw_pair s _ (cev e2) (carith PLUS) (proj1 (noeff_pw e1 (tame_noeff e1 T1) s)) (proj1 (noeff_pw e2 (tame_noeff e2 T2) s))) as K.
    rewrite Ep in K. destruct r as [[[v2 s2] R2] W2]. cbn [pw] in K. destruct K as [-> ->].
    destruct (cpair_inv _ _ _ _ Ep) as (va & sa & Ra & Wa & Ea & Eb). pose proof (proj1 (noeff_pw e1 (tame_noeff e1 T1) s)) as K. rewrite Ea in K.
    destruct K as [-> ->]. rewrite Ea. destruct (tame_hst e1 T1 s) as [H Hh]; [congruence|]. destruct (tame_hst e2 T2 s Eb) as [H2 Hh2].
    rewrite (hseq_pure Ra _ _ _ _ Hh Hh2). cbn [hall]. eauto.
  - destruct (cev e s) as [[[[v s1] R] W]|] eqn:Ea; [|exfalso; apply E; reflexivity].
    pose proof (proj1 (noeff_pw e (tame_noeff e T) s)) as K. rewrite Ea in K. destruct K as [-> ->].
    destruct (tame_hst e T s) as [H Hh]; [congruence|]. rewrite Hh. cbn [hall]. eauto.
Qed.
(* without memory, only the variables matter *)
Definition onv (l : list nat) (s t : store) : Prop := forall x, In x l -> s (LV x) = t (LV x).
Lemma onv_app a b s t : onv (a ++ b) s t -> onv a s t /\ onv b s t.
Proof. intros H. split; intros x Hx; apply H, in_or_app; auto. Qed.
Definition sw (s t : store) (r r' : res) : Prop :=
  match r with Some (v, s1, R, W) => s1 = s /\ W = [] /\ r' = Some (v, t, R, []) | None => True end.
Lemma nomem_sw e : nomem e = true -> forall s t, onv (xvars e) s t -> sw s t (cev e s) (cev e t).
Proof.
  induction e; cbn [nomem xvars]; intros Hn s t A; rewrite ?andb_true_iff in Hn; try discriminate;
    repeat match goal with H : _ /\ _ |- _ => destruct H end;
    repeat match goal with H : onv (_ ++ _) _ _ |- _ => apply onv_app in H; destruct H end;
    repeat match goal with IH : ?a = true -> _, H : ?a = true |- _ => specialize (IH H s t ltac:(assumption)) end;
    rewrite (cev_eq _ _ _ s), (cev_eq _ _ _ t); cbv beta iota; try (split; [reflexivity|split; reflexivity]); auto.
  - cbn [sw]. rewrite (A x) by (left; reflexivity). auto.
  - unfold cmap. dr (cev e s); [|exact Logic.I]. cbn [sw] in IHe. destruct IHe as (-> & -> & ->). destruct (cunary _ _); cbn [sw]; auto.
  - dr (cev e1 s); [|destruct (op =? AMP_AMP); [exact Logic.I|destruct (op =? BAR_BAR); exact Logic.I]].
    cbn [sw] in IHe1. destruct IHe1 as (-> & -> & ->).
    destruct (op =? AMP_AMP); [|destruct (op =? BAR_BAR)]; cbn [ShCSem.cthen cpair].
    + destruct (_ =? 0); [cbn [sw]; auto|]. dr (cev e2 s); [|exact Logic.I]. cbn [sw] in IHe2. destruct IHe2 as (-> & -> & ->). cbn [cmap truthy sw]. auto.
    + destruct (_ =? 0); [|cbn [sw]; auto]. dr (cev e2 s); [|exact Logic.I]. cbn [sw] in IHe2. destruct IHe2 as (-> & -> & ->). cbn [cmap truthy sw]. auto.
    + dr (cev e2 s); [|exact Logic.I]. cbn [sw] in IHe2. destruct IHe2 as (-> & -> & ->). destruct (race _ _ _ _); [exact Logic.I|].
      destruct (carith _ _ _); [cbn [sw]; auto|exact Logic.I].
  - dr (cev e1 s); [|exact Logic.I]. cbn [sw] in IHe1. destruct IHe1 as (-> & -> & ->). cbn [ShCSem.cthen].
    dr (cev e2 s); [|exact Logic.I]. cbn [sw] in IHe2. destruct IHe2 as (-> & -> & ->). cbn [sw]; auto.
  - dr (cev e1 s); [|exact Logic.I]. cbn [sw] in IHe1. destruct IHe1 as (-> & -> & ->). cbn [ShCSem.cthen].
    destruct (_ =? 0).
    + dr (cev e3 s); [|exact Logic.I]. cbn [sw] in IHe3. destruct IHe3 as (-> & -> & ->). cbn [sw]; auto.
    + dr (cev e2 s); [|exact Logic.I]. cbn [sw] in IHe2. destruct IHe2 as (-> & -> & ->). cbn [sw]; auto.
Qed.
End Pure.
