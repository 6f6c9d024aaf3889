(** * Code generated with the globals known so far is the code generated with all of them *)
From Coq Require Import ZArith List Lia Bool.
From Verif Require Import Base Asm AsmProof X86 X86Proof NMach NPtr CLang NGen NSupp NEqs NStat NStat2 NRt CProg NProg.
Import ListNotations.
Open Scope Z_scope.

Definition mle {A} (a b : M A) : Prop := forall s r, a s = Some r -> b s = Some r.
Lemma mle_refl {A} (a : M A) : mle a a. Proof. intros s r H. exact H. Qed.
Lemma mle_bind {A B} (a a' : M A) (k k' : A -> M B) : mle a a' -> (forall x, mle (k x) (k' x)) -> mle (bind a k) (bind a' k').
Proof.
  intros H K s r E. unfold bind in *. destruct (a s) as [[[x c] s1]|] eqn:Ea; [|discriminate]. rewrite (H _ _ Ea).
  destruct (k x s1) as [[[y c'] s2]|] eqn:Ek; [|discriminate]. rewrite (K _ _ _ Ek). exact E.
Qed.
Lemma mle_fail {A} (a : M A) : mle fail a. Proof. intros s r H. discriminate. Qed.
Definition ole {A} (a b : option A) : Prop := forall r, a = Some r -> b = Some r.
Lemma mle_lift {A} (a b : option A) : ole a b -> mle (lift a) (lift b).
Proof. intros H. destruct a; [rewrite (H _ eq_refl); apply mle_refl|apply mle_fail]. Qed.

Section X.
Variables (W : Z) (g g' : list gbnd).
Definition gle : Prop := (forall x r, look_glo x g = Some r -> look_glo x g' = Some r) /\ (forall x r, look_fun x g = Some r -> look_fun x g' = Some r) /\
  (forall x r, look_str x g = Some r -> look_str x g' = Some r).
Hypothesis HE : gle.
(** No name is both a variable and a function. *)
Hypothesis ND : forall f r, look_fun f g' = Some r -> look_glo f g' = None.

Lemma var_type_le loc x : ole (var_type g loc x) (var_type g' loc x).
Proof using HE. intros r. unfold var_type. assert (K : match look_glo x g with Some (_, t) => Some t | None => None end = Some r ->
    match look_glo x g' with Some (_, t) => Some t | None => None end = Some r).
  { destruct (look_glo x g) eqn:E; [|discriminate]. rewrite (proj1 HE _ _ E). auto. }
  destruct (look_loc x loc) as [[| | |]|]; auto. Qed.
Lemma fun_type_le x : ole (fun_type g x) (fun_type g' x).
Proof using HE. intros r. unfold fun_type. destruct (look_fun x g) eqn:E; [|discriminate]. rewrite (proj1 (proj2 HE) _ _ E). auto. Qed.
Lemma mem_le id m : ole (look_mem g id m) (look_mem g' id m).
Proof using HE. intros r. unfold look_mem. destruct (look_str id g) eqn:E; [|discriminate]. rewrite (proj2 (proj2 HE) _ _ E). auto. Qed.
Lemma mem_type_le id m : ole (mem_type g id m) (mem_type g' id m).
Proof using HE. intros r. unfold mem_type. destruct (look_mem g id m) eqn:E; [|discriminate]. rewrite (mem_le _ _ _ E). auto. Qed.
Lemma vt_le loc : forall e, ole (vt g loc e) (vt g' loc e).
Proof using HE.
  intros e r. apply vt_mono; [intros x t; apply var_type_le|intros x t; apply fun_type_le|intros x m t; apply mem_type_le].
Qed.
Ltac ml := repeat first [assumption | apply mle_fail | apply mle_bind; [|intros ?] | apply mle_lift, vt_le | apply mle_lift, mem_le | progress unfold codegen_mval, codegen_maddr, codegen_member, lbinop, test, codegen_opt
  | match goal with |- mle (match ?x with _ => _ end) _ => destruct x end | match goal with |- mle (if ?x then _ else _) _ => destruct x end | apply mle_refl].
Lemma rv_le loc : (forall e, mle (codegen_rvalue W g loc e) (codegen_rvalue W g' loc e) /\ mle (codegen_lvalue W g loc e) (codegen_lvalue W g' loc e)) /\
  (forall l, mle (codegen_params W g loc l) (codegen_params W g' loc l)).
Proof using HE ND.
  apply expr_args_ind; intros; repeat match goal with H : _ /\ _ |- _ => destruct H end;
    try (refine (conj _ _); [rewrite (codegen_rvalue_eq W g), (codegen_rvalue_eq W g')|rewrite (codegen_lvalue_eq W g), (codegen_lvalue_eq W g')]); try (rewrite (codegen_params_eq W g), (codegen_params_eq W g'));
    unfold codegen_rvalue_body, codegen_lvalue_body, codegen_params_body; cbv beta iota.
  all: try (ml; fail).
  all: try (apply mle_bind; [|intros ?; ml]).
  all: try (apply mle_bind; [assumption|intros ?]).
  all: repeat match goal with |- mle (match look_loc ?x ?lc with _ => _ end) _ => destruct (look_loc x lc) as [[| | |]|]; try apply mle_refl; try apply mle_fail end.
  - destruct (look_glo x g) eqn:E; [|apply mle_fail]. rewrite (proj1 HE _ _ E). apply mle_refl.
  - destruct (look_glo x g) eqn:E; [|apply mle_fail]. rewrite (proj1 HE _ _ E). apply mle_refl.
  - destruct (look_glo f g) eqn:E; [apply mle_fail|]. destruct (look_fun f g) as [[lb t]|] eqn:E2; [|apply mle_fail].
    pose proof (proj1 (proj2 HE) _ _ E2) as E3. rewrite (ND _ _ E3), E3. apply mle_refl.
Qed.
Lemma st_le : (forall c loc, mle (codegen_statement W g loc c) (codegen_statement W g' loc c)) /\ (forall l loc, mle (codegen_items W g loc l) (codegen_items W g' loc l)) /\
  (forall l loc st, mle (codegen_swl W g loc st l) (codegen_swl W g' loc st l)).
Proof using HE ND.
  assert (R : forall loc e, mle (codegen_rvalue W g loc e) (codegen_rvalue W g' loc e)) by (intros; apply rv_le).
  assert (LB : forall loc lb st, mle (codegen_label W g loc st lb) (codegen_label W g' loc st lb)).
  { intros loc lb [n d]. unfold codegen_label. destruct lb; [|apply mle_refl]. ml; auto. }
  assert (LBs : forall loc l st, mle (codegen_labels W g loc st l) (codegen_labels W g' loc st l)).
  { intros loc l. induction l; intros st; cbn [codegen_labels]; [apply mle_refl|]. apply mle_bind; [apply LB|intros; apply IHl]. }
  apply stmt_items_swl_ind; intros;
    try (rewrite (codegen_statement_eq W g), (codegen_statement_eq W g')); try (rewrite (codegen_items_eq W g), (codegen_items_eq W g')); try (rewrite (codegen_swl_eq W g), (codegen_swl_eq W g'));
    unfold codegen_statement_body, codegen_items_body, codegen_swl_body; cbv beta iota zeta; ml; auto.
Qed.
Lemma fun_le lb ps body : mle (codegen_fun W g lb ps body) (codegen_fun W g' lb ps body).
Proof using HE ND. unfold codegen_fun. ml; auto. apply st_le. Qed.
End X.
