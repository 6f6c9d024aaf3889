(** * All generated code executes its source *)
From Coq Require Import ZArith List Lia Bool.
From Verif Require Import Base Asm AsmProof X86 X86Proof X86Sem NMach NPtr CLang NGen NSupp NBin NRun NBop NEqs NStat NJudge NExpr NExpr2 NExpr3 NExpr4 NStat2 NStmt NSwitch NCall NLink NRt.
Import ListNotations.
Open Scope Z_scope.

Section X.
Variables (W slim STOP cb GB : Z) (bytes : list Z) (lab : Z -> option Z).
Variables (funs : cdecls) (gvars : list (Z * (Z * ty))) (glo : list gbnd) (F : mst -> Prop) (mp : list Z).
Hypothesis HW : W = 4 \/ W = 8.
Hypothesis Hslim : 0 < slim.
Hypothesis Hstop : STOP < MOD W.
Hypothesis Hdis : STOP <= cb \/ cb + zlen bytes <= slim.
Hypothesis Hcb : 0 <= cb /\ cb + zlen bytes <= MOD W.
Hypothesis HF : decl_ok funs glo.
Set Default Proof Using "HW Hslim Hstop Hdis Hcb HF gvars".
Notation placed := (placed W cb bytes lab).
Notation hsize := (hsize W).
Notation wp := (wp W slim).
Notation MOD := (MOD W).
Notation St := (St W slim STOP cb GB bytes).
Notation EX := (EX W slim STOP cb GB bytes lab funs gvars glo F mp).
Notation LX := (LX W slim STOP cb GB bytes lab funs gvars glo F mp).
Notation AX := (AX W slim STOP cb GB bytes lab funs gvars glo F mp).
Notation CX := (CX W slim STOP cb GB bytes lab funs gvars glo F mp).
Notation VR := (VR W GB glo).
Notation vok := (vok W funs).
Ltac ap R ::= eapply R; [exact HW|exact Hslim|exact Hstop|exact Hdis|..].
Ltac apx R ::= eapply R; [exact HW|exact Hslim|exact Hstop|exact Hdis|exact Hcb|exact HF|..].
Notation cs := (cs W funs gvars).
Notation cw := (cw W funs gvars).
Notation sep := (sep slim cb bytes).
Notation FR := (FR slim).
Notation ss := (ss W funs).
Notation sw := (sw W funs).
Notation cgs := (codegen_statement W glo).
Notation cgw := (codegen_swl W glo).
Notation Xt := (Xt W slim cb GB bytes).
Notation XK := (XK W slim cb GB bytes lab F mp).
Notation SX := (SX W slim STOP cb GB bytes lab funs gvars glo F mp).
Ltac plc Hp Hp1 := apply (placed_app _ _ _ _ HW) in Hp as [Hp1 Hp].
Notation IX := (IX W slim STOP cb GB bytes lab funs gvars glo F mp).
Notation FX := (FX W slim STOP cb GB bytes lab funs gvars glo F mp).
Notation WX := (WX W slim STOP cb GB bytes lab funs gvars glo F mp).
Notation CXg := (CXg W slim STOP cb GB bytes lab funs gvars glo F mp).
Hypothesis HU : forall g, fun_ok W cb bytes lab funs gvars glo g.
Hypothesis HR : forall g, rt_ok W cb bytes lab funs glo g.
Hypothesis HG : VR gvars [] 0.
Set Default Proof Using "HW Hslim Hstop Hdis Hcb HF HU HR HG".
Lemma CX_0 : CX 0.
Proof. intros L g vs s Q lb t a base ra ws' ws m0 r mm f HC. exfalso. eapply ccall_0; exact HC. Qed.
Lemma CX_S k : (forall l, IX k l) -> CX (S k).
Proof.
  intros IH L g. revert L. change (CXg (S k) g). destruct (funs g) as [[ps rt body| |]|] eqn:Eg.
  - apx c_user; [exact Eg|apply HU|exact HG|apply IH].
  - apx c_putchar; [exact Eg|apply HR].
  - apx c_getchar; [exact Eg|apply HR].
  - intros L' vs s Q lb t a base ra ws' ws m0 r mm f HC. rewrite ccall_eq in HC. unfold ccall_body in HC. rewrite Eg in HC. contradiction.
Qed.
Definition PK (k : nat) : Prop := (forall c, SX k c) /\ (forall l, IX k l) /\ (forall r, WX k r) /\ (forall t st b, FX k t st b) /\ CX k.
Lemma PK_0 : PK 0.
Proof.
  refine (conj _ (conj _ (conj _ (conj _ CX_0)))).
  - intros c E s Q; intros; exfalso; eapply cs_0; eassumption.
  - intros l E s Q; intros; exfalso; eapply ci_0; eassumption.
  - intros l E s Q; intros; exfalso; eapply cw_0; eassumption.
  - intros t st b. unfold NStmt.FX; intros; exfalso; eapply cfor_0; eassumption.
Qed.
Lemma PK_all : forall k, PK k.
Proof.
  induction k as [k IH] using (well_founded_induction Wf_nat.lt_wf). destruct k as [|k]; [apply PK_0|].
  assert (IE : forall j e, (j <= k)%nat -> EX j e).
  { intros j e Hj. assert (X : forall j0, (j0 < j)%nat -> CX j0) by (intros j0 Hj0; apply IH; lia). 
    destruct (expr_all W slim STOP cb GB bytes lab funs gvars glo F mp HW Hslim Hstop Hdis Hcb HF j X) as (A & _). apply A. }
  destruct (IH k) as (I1 & I2 & I3 & I4 & I5); [lia|]. specialize (IE) as IEk. pose proof (fun e => IE k e (le_n k)) as IEk'.
  refine (conj _ (conj _ (conj _ (conj _ _)))).
  - intros c. destruct c.
    + apx s_skip.
    + apx s_expr; auto.
    + apx s_if; auto.
    + apx s_while; auto.
    + apx s_do; auto.
    + apx s_for; auto.
    + apx s_switch; auto.
    + apx s_break.
    + apx s_continue.
    + apx s_return; auto.
    + apx s_block; auto.
  - intros l. destruct l.
    + apx i_nil.
    + apx i_stmt; auto.
    + apx i_decl; auto.
  - intros r. apx w_step; auto.
  - intros t st b. apx f_for; auto.
  - apply CX_S. exact I2.
Qed.
End X.
