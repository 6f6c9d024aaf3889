(** * C56, continued: what the machine code depends on

    White space and comments do not matter, and one text gives one program, one machine code and one file. *)
From Coq Require Import ZArith List Bool Lia Ascii String.
From Verif Require Import Base Asm AsmProof Elf PropAsm CLang CProg NGen NProg NWhole PropNative Lex PropLex FrontEnd PropFront PropFront2.
Import ListNotations.
Local Notation length := List.length.
Open Scope Z_scope.
Open Scope list_scope.

(** Compiling is a function of the text. *)
Theorem c56_output_unique : forall idn W file s1 b1 s2 b2,
  pnut_compiles idn W file s1 b1 -> pnut_compiles idn W file s2 b2 -> s1 = s2 /\ b1 = b2.
Proof.
  intros idn W file s1 b1 s2 b2 (d1 & c1 & F1 & C1) (d2 & c2 & F2 & C2). pose proof (c56_front_unique _ _ _ _ F1 F2). subst d2.
  pose proof (cp_code _ _ _ _ _ C1) as E1. pose proof (cp_code _ _ _ _ _ C2) as E2. rewrite E1 in E2. injection E2 as <- <-.
  split; [reflexivity|]. rewrite (cp_bytes _ _ _ _ _ C1), (cp_bytes _ _ _ _ _ C2). reflexivity.
Qed.

(** Two texts that are the same sequence of tokens by C's rules ([lexes] of Lex.v): each is accepted if the other is, as the
    same program, and their machine code is the same. *)
Theorem c56_same_tokens : forall idn W f1 f2 lts, lexes true f1 lts -> lexes true f2 lts -> no_dots lts ->
  (forall ds, front idn f1 ds <-> front idn f2 ds) /\ (forall sF bytes, pnut_compiles idn W f1 sF bytes <-> pnut_compiles idn W f2 sF bytes).
Proof.
  intros idn W f1 f2 lts L1 L2 N. apply c07_tokens in L1, L2; [|exact N|exact N].
  assert (A : forall f g, file_tokens f = file_tokens g -> forall ds, front idn f ds -> front idn g ds).
  { intros f g E ds (l & a & t & v & H1 & H2 & H3). exists l, a, t, v. rewrite <- E. split; [exact H1|]. split; [exact H2|exact H3]. }
  assert (E : file_tokens f1 = file_tokens f2) by congruence. assert (E' : file_tokens f2 = file_tokens f1) by congruence.
  split; [intros ds; split; apply A; assumption|].
  intros sF bytes. split; intros (ds & c & H & C); exists ds, c; (split; [|exact C]).
  - exact (A f1 f2 E ds H).
  - exact (A f2 f1 E' ds H).
Qed.
(** The rules of C agree: such texts are the same program. *)
Theorem c56_same_meaning : forall idn f1 f2 lts, lexes true f1 lts -> lexes true f2 lts -> no_dots lts ->
  forall ds, C_program idn f1 ds <-> C_program idn f2 ds.
Proof.
  intros idn f1 f2 lts L1 L2 N.
  assert (A : forall f g, lexes true f lts -> lexes true g lts -> forall ds, C_program idn f ds -> C_program idn g ds).
  { intros f g Lf Lg ds (l & ts & asts & H1 & H2 & H). assert (l = lts) by (eapply c07_unambiguous; eassumption). subst l.
    exists lts, ts, asts. split; [exact Lg|]. split; [exact N|exact H]. }
  intros ds. split; apply A; assumption.
Qed.

(** A case: the text of PropFront2.v with other white space and comments. *)
Definition text6' : list Z :=
  (10 :: zs "int/* the * type */main (  )"%string ++ 10 :: zs "{if(3- 2)putchar ( 66 );"%string ++ 10 :: zs "  return 7;} // done"%string ++ [10])%list.
Lemma plain6 : no_hash lts6.
Proof. intros t H. split; intros ->; unfold lts6 in H; cbn [In] in H; repeat (destruct H as [H|H]; [discriminate H|]); exact H. Qed.
Theorem c56_same_tokens_instance : lexes true text6 lts6 /\ lexes true text6' lts6 /\ no_dots lts6 /\ text6 <> text6' /\
  forall W, W = 4 \/ W = 8 -> pnut_compiles idn0 W text6' (snd (cg6 W)) (by6 W).
Proof.
  assert (A : lexes true text6 lts6) by (apply c07_only_those; [vm_compute; reflexivity|exact plain6]).
  assert (B : lexes true text6' lts6) by (apply c07_only_those; [vm_compute; reflexivity|exact plain6]).
  assert (N : no_dots lts6) by (unfold lts6; cbn [no_dots]; repeat split; intros [X _]; discriminate X).
  split; [exact A|]. split; [exact B|]. split; [exact N|]. split; [vm_compute; discriminate|].
  intros W HW. apply (c56_same_tokens idn0 W text6' text6 lts6 B A N). exact (text6_compiles W HW).
Qed.
