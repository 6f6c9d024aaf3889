(** * C50 for source programs: calls inside expressions *)
From Coq Require Import ZArith List Lia Bool.
From Verif Require Import Base Numerals Output Ast Parse ShArith ShExpr ShCSem ShSem ShMain6 PropShArith ShStmt PropShStmt ShProg PropShProg.
From Verif Require Import ShNest ShNest7.
From Verif Require Import ShFacts2 ShProg1 ShProg2 ShProg3 ShProg4 ShProg5.
From Verif Require ShFacts ShNames PropShNames.
Import ListNotations.
Open Scope Z_scope.
Local Notation length := List.length.

(** ** The theorem *)
(* [prg] is a C program with calls anywhere in its expressions; the script is the one that pnut writes
   after taking the calls out of the expressions ([prg2]).  For every program of the language, every
   shell, every initial state and all bounds: unless the C program does something undefined (or
   something that the order of the shell's expansions can change), the script writes the bytes that the
   C program writes and ends in the same way. *)
Theorem c50_nested_partial : forall N sev ro vn mn zn moff zsz, setting N sev ro vn mn zn moff zsz ->
  forall tb glob prg, (forall f d, prg f = Some d -> ok_yfun tb glob d) ->
  forall trd loc frd, script vn mn zn (fun f => option_map (lift_fun tb) (prg f)) trd loc frd ->
  forall lim n main g,
    let s := fun l => g (nm vn l) in
    snd (yrun moff zsz true lim prg n main s) <> Stuck ->
    srun sev ro vn mn zn lim trd loc frd n main g = yrun moff zsz true lim prg n main s /\
    srun sev ro vn mn zn lim trd loc frd n main g = yrun moff zsz false lim prg n main s.
Proof.
  intros N sev ro vn mn zn moff zsz SET tb glob prg OK trd loc frd P lim n main g s H.
  pose proof (run_lift moff zsz true lim tb glob prg OK n main s H) as E.
  assert (H2 : snd (crun moff zsz true lim (prg2 tb prg) n main s) <> Stuck) by (rewrite E; exact H).
  destruct (c50_partial N sev ro vn mn zn moff zsz SET (prg2 tb prg) trd loc frd P lim n main g H2) as [A _].
  split; [exact (eq_trans A E)|]. etransitivity; [exact (eq_trans A E)|]. symmetry. apply yrun_le. exact H.
Qed.
Corollary c50_nested_result_partial : forall N sev ro vn mn zn moff zsz, setting N sev ro vn mn zn moff zsz ->
  forall tb glob prg, (forall f d, prg f = Some d -> ok_yfun tb glob d) ->
  forall trd loc frd, script vn mn zn (fun f => option_map (lift_fun tb) (prg f)) trd loc frd ->
  forall lim n main g out z,
    yrun moff zsz true lim prg n main (fun l => g (nm vn l)) = (out, Exited z) ->
    srun sev ro vn mn zn lim trd loc frd n main g = (out, Exited z).
Proof.
  intros N sev ro vn mn zn moff zsz SET tb glob prg OK trd loc frd P lim n main g out z H. rewrite <- H.
  apply (c50_nested_partial N sev ro vn mn zn moff zsz SET tb glob prg OK trd loc frd P). cbv zeta. rewrite H. discriminate.
Qed.
(* the calls come out in the order of C: taking them out does not change the program *)
Theorem c50_lift_partial : forall moff zsz q tb glob prg, (forall f d, prg f = Some d -> ok_yfun tb glob d) ->
  forall lim n main s, snd (yrun moff zsz q lim prg n main s) <> Stuck ->
    crun moff zsz q lim (fun f => option_map (lift_fun tb) (prg f)) n main s = yrun moff zsz q lim prg n main s.
Proof. intros moff zsz q tb glob prg OK lim n main s H. exact (run_lift moff zsz q lim tb glob prg OK n main s H). Qed.

(** ** The names of the temporaries (C26) *)
(* variables up to tb have the names of C26, variable tb + k is the temporary __tk *)
Definition tnames (tb : nat) (isloc : name -> bool) (vx : nat -> name) (i : nat) : name :=
  if (i <=? tb)%nat then ShNames.env_var isloc (vx i) else ShNames.internal_var (Z.of_nat (i - tb)).
Lemma internal_app k : ShNames.internal_var k = [95; 95; 116] ++ decimal k.
Proof. reflexivity. Qed.
Theorem c50_temp_names : forall tb isloc (vx mx zx : nat -> name) moff zsz,
  (forall z, isloc z = true -> PropShNames.fine (ShNames.OLocal z)) ->
  (forall i, is_ident (vx i) /\ (isloc (vx i) = false -> hd 0 (vx i) <> 95)) -> (forall i j, vx i = vx j -> i = j) ->
  (forall k, is_ident (mx k) /\ ~ PropShNames.reserved (mx k)) -> (forall k, is_ident (zx k)) ->
  names_ok (tnames tb isloc vx) (fun k => ShNames.struct_member_var (mx k)) (fun k => ShNames.struct_sizeof_var (zx k)) moff zsz /\
  forall x, ~ In (tnames tb isloc vx x) [SP; TMP; CODE; none_name] /\ forall k, tnames tb isloc vx x <> stk k.
Proof.
  intros tb isloc vx mx zx moff zsz HL HV HI HM HZ.
  destruct (c50_names isloc vx mx zx moff zsz HL HV HI (fun k => proj1 (HM k)) HZ) as [NK OW].
  assert (D : forall k, exists c r, decimal (Z.of_nat k) = c :: r /\ 48 <= c <= 57).
  { intros k. destruct (dec_head (Z.of_nat k) ltac:(lia)) as (c & r & E & I). exists c, r. split; [exact E|]. cbn in I. lia. }
  assert (TI : forall k, is_ident (ShNames.internal_var (Z.of_nat k))).
  { intros k. rewrite internal_app. split; [reflexivity|]. cbn [app forallb]. rewrite ShFacts.decimal_word by lia. reflexivity. }
  assert (EX : forall i k, ShNames.env_var isloc (vx i) <> ShNames.internal_var k).
  { intros i k E. unfold ShNames.env_var in E. destruct (isloc (vx i)) eqn:L.
    - destruct (PropShNames.local_head (vx i) (HL _ L)) as (c & q & Eq & Hc). rewrite Eq, internal_app in E. cbn [app] in E. congruence.
    - destruct (HV i) as [_ H]. specialize (H L). rewrite internal_app in E. unfold ShNames.global_var in E. cbn in E. inversion E as [Z1]. rewrite Z1 in H. apply H. reflexivity. }
  split.
  - constructor; unfold tnames.
    + intros i. destruct (i <=? tb)%nat; [apply (nk_vi _ _ _ _ _ NK)|apply TI].
    + apply (nk_mi _ _ _ _ _ NK).
    + apply (nk_zi _ _ _ _ _ NK).
    + intros i j. destruct (Nat.leb_spec i tb) as [Hi|Hi], (Nat.leb_spec j tb) as [Hj|Hj]; intros E.
      * exact (nk_vinj _ _ _ _ _ NK i j E).
      * destruct (EX _ _ E).
      * destruct (EX _ _ (eq_sym E)).
      * rewrite !internal_app in E. apply app_inv_head in E.
        pose proof (f_equal (numeral_value 10) E) as F. rewrite (proj1 (ShFacts.decimal_ok (Z.of_nat (i - tb)) ltac:(lia))), (proj1 (ShFacts.decimal_ok (Z.of_nat (j - tb)) ltac:(lia))) in F. inversion F. lia.
    + intros i a. destruct (i <=? tb)%nat; [apply (nk_vcell _ _ _ _ _ NK i)|].
      rewrite internal_app. cbn [app]. intros E. inversion E as [E1]. destruct (decimal_head a) as (c & r & Ed & Hc). congruence.
    + apply (nk_mcell _ _ _ _ _ NK).
    + apply (nk_zcell _ _ _ _ _ NK).
    + intros i n v C. destruct (Nat.leb_spec i tb) as [Hi|Hi]; [apply (nk_vconst _ _ _ _ _ NK i n v C)|].
      assert (FT : PropShNames.fine (ShNames.OTemp (Z.of_nat (i - tb)))) by (cbn [PropShNames.fine]; lia).
      intros E. destruct C as [c Hc|k|k].
      * pose proof (PropShNames.c26_distinct (ShNames.OTemp (Z.of_nat (i - tb))) (ShNames.OChar c) FT Hc ltac:(discriminate) E). discriminate.
      * pose proof (PropShNames.c26_distinct (ShNames.OTemp (Z.of_nat (i - tb))) (ShNames.OMember 0 (mx k)) FT (HM k) ltac:(discriminate) E). discriminate.
      * pose proof (PropShNames.c26_distinct (ShNames.OTemp (Z.of_nat (i - tb))) (ShNames.OSizeof (zx k)) FT (HZ k) ltac:(discriminate) E). discriminate.
  - intros x. unfold tnames. destruct (x <=? tb)%nat; [apply OW|]. rewrite internal_app. destruct (D (x - tb)%nat) as (c & r & -> & Hc). split.
    + intros I. cbn [app] in I. repeat (destruct I as [E|I]; [try discriminate E; inversion E; lia|]). destruct I.
    + intros k E. unfold stk in E. cbn [app] in E. inversion E as [E1].
      destruct (Z.ltb_spec k 0) as [Hk|Hk]; [rewrite ShFacts.decimal_neg in E1 by lia; discriminate|].
      destruct (dec_head k Hk) as (d & r2 & Ed & I). rewrite Ed in E1. inversion E1; subst d. cbn in I. lia.
Qed.

(** ** A program *)
(* int c;
   int next() { c = c + 1; return c; }
   int fact(int n) { if (n <= 1) return 1; return n * fact(n - 1); }
   int main() {
     int i; int k;
     for (i = 1; i <= 3; i = i + 1) putchar(48 + fact(i));
     while ((k = next()) < 3 && fact(k) + 1) putchar(96 + k);
     putchar(next() + fact(next()) * 2);
     return fact(fact(3)) / 10;
   }
   c is variable 0, n 1, i 2, k 3; next, fact and main are the functions 0, 1 and 2; tb = 3 *)
Local Notation V x := (YX (XVar x)).
Local Notation K z := (YX (XInt z)).
Local Notation call1 f a := (YCall f (Ycons a Ynil)).
Definition prog1 : list yfun :=
  [ YF [] [] (Scons [] (SAtom (YAsgn EQ (XVar 0) (YX (XBin PLUS (XVar 0) (XInt 1)))))
             (Scons [] (SReturn (YRet (V 0%nat))) Snil));
    YF [1%nat] [] (Scons [] (SIf (YLeaf (YX (XBin LT_EQ (XVar 1) (XInt 1)))) (SReturn (YRet (K 1))) SEmpty)
             (Scons [] (SReturn (YRet (YBin STAR (V 1%nat) (call1 1%nat (YX (XBin MINUS (XVar 1) (XInt 1))))))) Snil));
    YF [] [2%nat; 3%nat]
      (Scons [] (SFor (Some (YAsgn EQ (XVar 2) (K 1))) (Some (YLeaf (YX (XBin LT_EQ (XVar 2) (XInt 3)))))
                   (Some (YAsgn EQ (XVar 2) (YX (XBin PLUS (XVar 2) (XInt 1)))))
                   (SAtom (YPutc (YBin PLUS (K 48) (call1 1%nat (V 2%nat))))))
      (Scons [] (SWhile (YLog true (YLeaf (YBin LT (YPar (YSet 3 0 Ynil)) (K 3))) (YLeaf (YBin PLUS (call1 1%nat (V 3%nat)) (K 1))))
                   (SAtom (YPutc (YX (XBin PLUS (XInt 96) (XVar 3))))))
      (Scons [] (SAtom (YPutc (YBin PLUS (YCall 0 Ynil) (YBin STAR (call1 1%nat (YCall 0 Ynil)) (K 2)))))
      (Scons [] (SReturn (YRet (YBin SLASHC (call1 1%nat (call1 1%nat (K 3))) (K 10)))) Snil)))) ].
Lemma prog1_ok f d : nth_error prog1 f = Some d -> ok_yfun 3 (Nat.eqb 0) d.
Proof.
  destruct f as [|[|[|f]]]; intros E; [| | |destruct f; discriminate]; injection E as <-; (split; [|vm_compute; reflexivity]).
  1: intros x [].
  1-2: intros x I; repeat (destruct I as [<-|I]; [split; [lia|reflexivity]|]); destruct I.
Qed.
Lemma prog1_run : yrun moff0 zsz0 true 100 (nth_error prog1) 20 2 (fun _ => 0) = ([49; 50; 54; 97; 98; 244], Exited 72).
Proof. vm_compute. reflexivity. Qed.
Lemma nth_map {A B} (f : A -> B) l : forall n, nth_error (map f l) n = option_map f (nth_error l n).
Proof. induction l as [|a l IH]; intros [|n]; cbn; auto. Qed.
Lemma c50_nested_instance : exists sev loc frd, setting 64 sev ro0 vn0 mn0 zn0 moff0 zsz0 /\
  script vn0 mn0 zn0 (fun f => option_map (lift_fun 3) (nth_error prog1 f)) (crd vn0 mn0 zn0) loc frd /\
  srun sev ro0 vn0 mn0 zn0 100 (crd vn0 mn0 zn0) loc frd 20 2 (fun _ => 0) = ([49; 50; 54; 97; 98; 244], Exited 72).
Proof.
  destruct c50_shell as [sev HS].
  destruct (script_exists vn0 mn0 zn0 (map (lift_fun 3) prog1)) as (loc & frd & HP).
  { repeat constructor; try discriminate; try (intros I; repeat (destruct I as [E|I]; [discriminate E|]); destruct I). }
  assert (HP2 : script vn0 mn0 zn0 (fun f => option_map (lift_fun 3) (nth_error prog1 f)) (crd vn0 mn0 zn0) loc frd).
  { destruct HP as (A & B & C). split; [|split; [exact B|]].
    - intros f d E. apply A. rewrite nth_map. exact E.
    - intros f. rewrite <- nth_map. apply C. }
  exists sev, loc, frd. split; [exact HS|]. split; [exact HP2|].
  apply (c50_nested_result_partial 64 sev ro0 vn0 mn0 zn0 moff0 zsz0 HS 3 (Nat.eqb 0) _ prog1_ok _ _ _ HP2). exact prog1_run.
Qed.

(* int c;
   int next() { c = c + 1; return c; }
   void put(int a, int b) { if (a < b) return; putchar(a); return; }
   int main() {
     c += 7; *c = ((c) + 60); put(next(), c); put(66, next() + c); put(c = 65, 60);
     for (;;) { putchar( *8); putchar( *7); return c; }
   }
   assignments to memory and arguments that are safe only because no call comes after them, arguments
   with effects, a bare return and an endless loop that is left by return only.
   c is variable 0, a 1, b 2 *)
Definition prog3 : list yfun :=
  [ YF [] [] (Scons [] (SAtom (YAsgn EQ (XVar 0) (YX (XBin PLUS (XVar 0) (XInt 1)))))
             (Scons [] (SReturn (YRet (V 0%nat))) Snil));
    YF [1%nat; 2%nat] [] (Scons [] (SIf (YLeaf (YX (XBin LT (XVar 1) (XVar 2)))) (SReturn YRet0) SEmpty)
             (Scons [] (SAtom (YPutc (V 1%nat))) (Scons [] (SReturn YRet0) Snil)));
    YF [] []
      (Scons [] (SAtom (YExpr (YX (XAsg PLUS_EQ (XVar 0) (XInt 7)))))
      (Scons [] (SAtom (YAsgn EQ (XDeref (XVar 0)) (YPar (YBin PLUS (YPar (V 0%nat)) (K 60)))))
      (Scons [] (SAtom (YCallS None 1 (Ycons (YCall 0 Ynil) (Ycons (V 0%nat) Ynil))))
      (Scons [] (SAtom (YCallS None 1 (Ycons (K 66) (Ycons (YBin PLUS (YCall 0 Ynil) (V 0%nat)) Ynil))))
      (Scons [] (SAtom (YCallS None 1 (Ycons (YX (XAsg EQ (XVar 0) (XInt 65))) (Ycons (K 60) Ynil))))
      (Scons [] (SFor None None None (SBlock (Scons [] (SAtom (YPutc (YX (XDeref (XInt 8))))) (Scons [] (SAtom (YPutc (YX (XDeref (XInt 7))))) (Scons [] (SReturn (YRet (V 0%nat))) Snil))))) Snil)))))) ].
Lemma prog3_ok f d : nth_error prog3 f = Some d -> ok_yfun 2 (Nat.eqb 0) d.
Proof.
  destruct f as [|[|[|f]]]; intros E; [| | |destruct f; discriminate]; injection E as <-; (split; [|vm_compute; reflexivity]).
  1,3: intros x [].
  intros x I; repeat (destruct I as [<-|I]; [split; [lia|reflexivity]|]); destruct I.
Qed.
Lemma prog3_run : yrun moff0 zsz0 true 100 (nth_error prog3) 20 2 (fun _ => 0) = ([8; 66; 65; 0; 67], Exited 65).
Proof. vm_compute. reflexivity. Qed.
Lemma c50_nested_instance2 : exists sev loc frd, setting 64 sev ro0 vn0 mn0 zn0 moff0 zsz0 /\
  script vn0 mn0 zn0 (fun f => option_map (lift_fun 2) (nth_error prog3 f)) (crd vn0 mn0 zn0) loc frd /\
  srun sev ro0 vn0 mn0 zn0 100 (crd vn0 mn0 zn0) loc frd 20 2 (fun _ => 0) = ([8; 66; 65; 0; 67], Exited 65).
Proof.
  destruct c50_shell as [sev HS].
  destruct (script_exists vn0 mn0 zn0 (map (lift_fun 2) prog3)) as (loc & frd & HP).
  { repeat constructor; try discriminate; try (intros I; repeat (destruct I as [E|I]; [discriminate E|]); destruct I). }
  assert (HP2 : script vn0 mn0 zn0 (fun f => option_map (lift_fun 2) (nth_error prog3 f)) (crd vn0 mn0 zn0) loc frd).
  { destruct HP as (A & B & C). split; [|split; [exact B|]].
    - intros f d E. apply A. rewrite nth_map. exact E.
    - intros f. rewrite <- nth_map. apply C. }
  exists sev, loc, frd. split; [exact HS|]. split; [exact HP2|].
  apply (c50_nested_result_partial 64 sev ro0 vn0 mn0 zn0 moff0 zsz0 HS 2 (Nat.eqb 0) _ prog3_ok _ _ _ HP2). exact prog3_run.
Qed.
