(** * The hypotheses of C34 and C35 hold in the example process of PropNative2, for an expression and a loop *)
From Coq Require Import ZArith List Lia Bool.
From Verif Require Import Base Asm AsmProof Elf PropAsm X86 X86Proof X86Sem NMach NPtr CLang CProg NGen NSupp NBin NRun NJudge NEqs NLink NRt NProg NWhole NWhole3 NWhole4 NWhole5 PropNative PropNative2.
Import ListNotations.
Open Scope Z_scope.

Definition gv1 : list (Z * (Z * ty)) := [(20, (268435472, tint))].
(** Memory once the initializer has run (g = 5), and registers inside main. *)
Definition mem2 (a : Z) : Z := if a =? 268435472 then 5 else mem1 8 a.
Definition regs2 : Z -> Z := upd (upd (fun _ => 0) 4 2147417000) 3 268435456.
Theorem ds1_running : running 8 1879048192 2147418112 4198400 268435456 (by1 8) ds1 (snd (cg 8)) gv1.
Proof.
  assert (B : zlen (by1 8) <= 10000) by (apply Z.leb_le; vm_compute; reflexivity). pose proof (zlen_nonneg (by1 8)).
  assert (M : 2 ^ 32 <= MOD 8) by (apply Z.leb_le; vm_compute; reflexivity).
  constructor; try lia.
  - reflexivity.
  - intros x a t H1. cbn [gv1 lookupZ] in H1. destruct (Z.eqb_spec x 20) as [->|]; [|discriminate]. inversion H1; subst a t. exists 16. split; [reflexivity|]. split; [reflexivity|lia].
Qed.
(** Where a piece of code lies. *)
Fixpoint place (n : nat) (c : list hop) : list hop * list hop := match n, c with S n, h :: c => let (a, b) := place n c in (h :: a, b) | _, _ => ([], c) end.
Lemma place_app n : forall c, fst (place n c) ++ snd (place n c) = c.
Proof. induction n as [|n IH]; intros [|h c]; cbn [place]; try reflexivity. specialize (IH c). destruct (place n c). cbn [fst snd app] in *. congruence. Qed.
Lemma placed_sub n k cb bytes lab code c : placed 8 cb bytes lab 0 code -> fst (place k (snd (place n code))) = c -> placed 8 cb bytes lab (hsize 8 (fst (place n code))) c.
Proof.
  intros H <-. rewrite <- (place_app n code) in H. apply placed_app in H as [_ H]; [|now right]. rewrite <- (place_app k (snd (place n code))) in H. apply placed_app in H as [H _]; [|now right]. exact H.
Qed.
(** The expression tri(g + 6) of main. *)
Definition e1 : expr := ECall 21 (ACons (EBin Add (EVar 20) (ELit 6)) ANil).
Definition c1 : list hop := match codegen_rvalue 8 (gglo (snd (cg 8))) [] e1 (0, 100) with Some (_, c, _) => c | None => [] end.
Definition p1 : Z := hsize 8 (fst (place 67 (fst (cg 8)))).
Lemma at1 : placed 8 4198400 (by1 8) (labs 8 (fst (cg 8))) p1 c1.
Proof. apply (placed_sub 67 (length c1)); [exact (compiled_placed _ _ _ _ _ _ (ds1_compiled 8 (or_intror eq_refl)))|vm_compute; reflexivity]. Qed.
Definition s2 : cst := CS mem2 [] [].
Definition L2 : list (Z * Z) := [(268435472, 4)].
Lemma St2 : St 8 1879048192 2147418112 4198400 268435456 (by1 8) L2 mem2 2147417000 [] mem2 regs2 mem2.
Proof.
  assert (B : zlen (by1 8) <= 10000) by (apply Z.leb_le; vm_compute; reflexivity). pose proof (zlen_nonneg (by1 8)).
  assert (M : 2 ^ 32 <= MOD 8) by (apply Z.leb_le; vm_compute; reflexivity).
  destruct (ds1_started 8 (or_intror eq_refl)) as [_ _ D1 D2 _ _ _ _ _ _]. cbn [start1 mm] in *.
  assert (D3 : bytes_ok mem2). { intros a. unfold mem2. specialize (D1 a). destruct (a =? 268435472); lia. }
  constructor.
  - intros q. unfold regs2, upd. destruct (q =? 3); [lia|]. destruct (q =? 4); lia.
  - exact D3.
  - exact D3.
  - unfold codeok. eapply at_ext; [|exact D2]. intros x Hx. unfold mem2. rewrite (proj2 (Z.eqb_neq x 268435472)) by lia. reflexivity.
  - reflexivity.
  - reflexivity.
  - unfold regs2, upd. change (4 =? 3) with false. change (4 =? 4) with true. cbv iota. lia.
  - lia.
  - intros a Ha. reflexivity.
  - intros a (b & [<-|[]] & Hb). cbn [fst snd] in Hb. lia.
  - exact I.
  - intros a _ _. reflexivity.
Qed.
(** All hypotheses of C34 hold of it; the machine leaves 66. *)
Theorem c34_instance : wp 8 1879048192 (fun t => pc t = 4198400 + (p1 + hsize 8 c1) /\ rd (Wn 8) (mm t) (rg t 4) mod 2 ^ 32 = 66 /\ rg t 4 = 2147417000 - 8)
  (MS regs2 mem2 (4198400 + p1) None [] [] []).
Proof.
  assert (Hl : loadv 8 tint mem2 268435472 = 5) by (vm_compute; reflexivity).
  assert (Hce : ce 8 (cfuns ds1) gv1 200 (Env gv1 L2) e1 s2 (fun v _ => v = 66)).
  { unfold e1. change 200%nat with (S (S (S (S 196)))). apply x_call1. apply x_bin; [reflexivity|reflexivity|]. eapply x_var; [reflexivity| |].
    { exists (268435472, 4). split; [left; reflexivity|cbn [fst snd]; lia]. }
    change (cmem s2) with mem2. rewrite Hl. apply x_lit; [lia|]. rewrite bv_add by lia. cbn [oq]. eapply tri_ok; [reflexivity|lia|lia|]. intros m _. reflexivity. }
  assert (Hs : supp 8 (cfuns ds1) (tys gv1) (Mod 4) e1 = true) by (vm_compute; reflexivity).
  assert (Hc : codegen_rvalue 8 (gglo (snd (cg 8))) [] e1 (0, 100) = Some (tt, c1, (1, 100))) by (vm_compute; reflexivity).
  assert (Hv : VR 8 268435456 (gglo (snd (cg 8))) gv1 [] 2147417000).
  { intros x a t H. destruct (ru_glo _ _ _ _ _ _ _ _ _ ds1_running x a t H) as (off & X1 & X2 & X3). split; [|exact X3]. right; right. split; [reflexivity|]. exists off. auto. }
  pose proof (c34_expression_partial 8 _ _ _ _ _ _ _ _ _ (ds1_compiled 8 (or_intror eq_refl)) ds1_running 200 (Env gv1 L2) e1 s2 (fun v _ => v = 66) 4 [] 2147417000 0 100 tt c1 (1, 100)
    2147417000 [] mem2 regs2 mem2 p1 None [] Hce ltac:(lia) Hs Hc Hv at1 St2 eq_refl) as [_ H].
  apply (wp_mono _ _ _ _ _ H). intros t (v & s' & w & -> & Hw & Hp & _ & _ & _ & HS). split; [exact Hp|].
  destruct HS. change (zlen [w]) with 1 in st_sp. destruct st_stk as [Hk _]. rewrite Hk. split; [exact Hw|lia].
Qed.

(** The first statement of main, g = tri(g + 6); all hypotheses of C35 hold of it, and it stores 66 in g. *)
Definition st1 : stmt := SExpr (EAsg (EVar 20) e1).
Definition c2 : list hop := match codegen_statement 8 (gglo (snd (cg 8))) [] st1 (0, 100) with Some (_, c, _) => c | None => [] end.
Definition p2 : Z := hsize 8 (fst (place 64 (fst (cg 8)))).
Lemma at2 : placed 8 4198400 (by1 8) (labs 8 (fst (cg 8))) p2 c2.
Proof. apply (placed_sub 64 (length c2)); [exact (compiled_placed _ _ _ _ _ _ (ds1_compiled 8 (or_intror eq_refl)))|vm_compute; reflexivity]. Qed.
Theorem c35_instance : wp 8 1879048192 (fun t => pc t = 4198400 + (p2 + hsize 8 c2) /\ mm t 268435472 = 66 /\ rg t 4 = 2147417000)
  (MS regs2 mem2 (4198400 + p2) None [] [] []).
Proof.
  assert (Hl : loadv 8 tint mem2 268435472 = 5) by (vm_compute; reflexivity).
  assert (Hb : inblock L2 268435472 4) by (exists (268435472, 4); split; [left; reflexivity|cbn [fst snd]; lia]).
  assert (Hce : cs 8 (cfuns ds1) gv1 200 (Env gv1 L2) st1 s2 (fun o s => o = ONormal /\ cmem s 268435472 = 66)).
  { unfold e1. change 200%nat with (S (S (S (S (S (S 194)))))). apply x_expr. eapply x_asg; [reflexivity|]. apply x_call1. apply x_bin; [reflexivity|reflexivity|]. eapply x_var; [reflexivity|exact Hb|].
    change (cmem s2) with mem2. rewrite Hl. apply x_lit; [lia|]. rewrite bv_add by lia. cbn [oq]. eapply tri_ok; [reflexivity|lia|lia|]. intros m _. split; [reflexivity|]. split; [exact Hb|]. split; reflexivity. }
  assert (Hs : ss 8 (cfuns ds1) (tys gv1) tint true st1 = true) by (vm_compute; reflexivity).
  assert (Hc : codegen_statement 8 (gglo (snd (cg 8))) [] st1 (0, 100) = Some (tt, c2, (0, 100))) by (vm_compute; reflexivity).
  assert (Hv : VR 8 268435456 (gglo (snd (cg 8))) gv1 [] 2147417000).
  { intros x a t H. destruct (ru_glo _ _ _ _ _ _ _ _ _ ds1_running x a t H) as (off & X1 & X2 & X3). split; [|exact X3]. right; right. split; [reflexivity|]. exists off. auto. }
  assert (M : 2147417000 + 8 < MOD 8) by (apply Z.ltb_lt; vm_compute; reflexivity).
  pose proof (c35_statement_partial 8 _ _ _ _ _ _ _ _ _ (ds1_compiled 8 (or_intror eq_refl)) ds1_running 200 (Env gv1 L2) st1 s2 _ tint true [] 2147417000 0 100 tt c2 (0, 100)
    2147417000 mem2 regs2 mem2 p2 None [] Hce Hs Hc Hv at2 St2 eq_refl ltac:(lia) M ltac:(intros; discriminate) ltac:(intros; discriminate)) as [_ H].
  apply (wp_mono _ _ _ _ _ H). intros t (o & s' & (-> & Hg) & _ & _ & _ & Hp & HS). split; [exact Hp|].
  destruct HS. change (zlen []) with 0 in st_sp. rewrite st_agree; [split; [exact Hg|lia]|]. exists (268435472, 4). split; [left; reflexivity|cbn [fst snd]; lia].
Qed.
