(** * C56: a text, taken through tokens, tree, program, machine code and execution *)
From Coq Require Import ZArith List Bool Lia Ascii String.
From Verif Require Import Base Asm AsmProof Elf PropAsm X86 X86Proof X86Sem NMach NPtr CLang CProg NGen NSupp NEqs NLink NRt NProg NWhole NWhole3 PropNative PropNative4 PropNative5.
From Verif Require Import Ast EvalConst Lex PropLex Enum Parse Grammar PropParse ParseStmt GrammarStmt PropParseStmt FrontEnd PropFront.
Import ListNotations.
Local Notation length := List.length.
Open Scope Z_scope.
Open Scope list_scope.

(** A numbering of identifiers: the names of the library, then the names read as numbers in base 129. *)
Fixpoint number (n : list Z) : Z := match n with [] => 0 | c :: n => (c + 1) + 129 * number n end.
Fixpoint find_lib (n : list Z) (l : list (list Z * Z)) : option Z := match l with [] => None | (m, k) :: l => if leqb n m then Some k else find_lib n l end.
Definition idn0 (n : list Z) : Z := match find_lib n library with Some k => k | None => 16 + number n end.
Lemma idchar_range c : is_idchar c = true -> 0 <= c < 128.
Proof. unfold is_idchar, is_letter. lia. Qed.
Lemma number_inj a : forall b, forallb is_idchar a = true -> forallb is_idchar b = true -> number a = number b -> a = b.
Proof.
  assert (P : forall l, forallb is_idchar l = true -> 0 <= number l).
  { induction l as [|c l IH]; cbn [forallb number]; intros H; [lia|]. apply andb_true_iff in H as [H1 H2]. apply idchar_range in H1. specialize (IH H2). lia. }
  induction a as [|x a IH]; intros [|y b]; cbn [forallb number]; intros H1 H2 E; try reflexivity.
  - apply andb_true_iff in H2 as [H2 H3]. apply idchar_range in H2. apply P in H3. lia.
  - apply andb_true_iff in H1 as [H1 H3]. apply idchar_range in H1. apply P in H3. lia.
  - apply andb_true_iff in H1 as [H1 H3]. apply andb_true_iff in H2 as [H2 H4]. apply idchar_range in H1, H2. f_equal; [lia|]. apply IH; [assumption|assumption|lia].
Qed.
Lemma find_lib_in n l k : find_lib n l = Some k -> In (n, k) l.
Proof.
  induction l as [|[m j] l IH]; cbn [find_lib]; [discriminate|]. destruct (leqb n m) eqn:E; intros H; [|right; auto]. left. apply leqb_eq in E. congruence.
Qed.
Lemma lib_small n k : In (n, k) library -> 1 <= k <= 16.
Proof.
  assert (A : forallb (fun p => (1 <=? snd p) && (snd p <=? 16)) library = true) by (vm_compute; reflexivity).
  rewrite forallb_forall in A. intros H. apply A in H. cbn [snd] in H. lia.
Qed.
Lemma nodup_snd {A B} (l : list (A * B)) a b n : NoDup (map snd l) -> In (a, n) l -> In (b, n) l -> a = b.
Proof.
  induction l as [|[m t] l IH]; cbn [map snd In]; intros N H1 H2; [contradiction|]. inversion_clear N as [|? ? N1 N2].
  destruct H1 as [E1|H1], H2 as [E2|H2].
  - congruence.
  - injection E1 as -> ->. destruct N1. apply (in_map snd) in H2. exact H2.
  - injection E2 as -> ->. destruct N1. apply (in_map snd) in H1. exact H1.
  - auto.
Qed.
Theorem idn0_numbering : numbering idn0.
Proof.
  split.
  - intros a b [A1 A2] [B1 B2]. unfold idn0.
    assert (P : forall l, l <> [] -> forallb is_idchar l = true -> 1 <= number l).
    { intros l Hl H. destruct l as [|c l]; [congruence|]. cbn [forallb number] in *. apply andb_true_iff in H as [H1 H2]. apply idchar_range in H1.
      assert (Q : forall l, forallb is_idchar l = true -> 0 <= number l).
      { clear. induction l as [|c l IH]; cbn [forallb number]; intros H; [lia|]. apply andb_true_iff in H as [H1 H2]. apply idchar_range in H1. specialize (IH H2). lia. }
      specialize (Q l H2). lia. }
    pose proof (P a A1 A2). pose proof (P b B1 B2).
    destruct (find_lib a library) as [k|] eqn:Ea, (find_lib b library) as [j|] eqn:Eb; intros E.
    + subst j. apply find_lib_in in Ea, Eb. eapply nodup_snd; [|exact Ea|exact Eb]. vm_compute. repeat (constructor; [cbn [In]; intuition discriminate|]). constructor.
    + apply find_lib_in, lib_small in Ea. lia.
    + apply find_lib_in, lib_small in Eb. lia.
    + apply number_inj; [assumption|assumption|lia].
  - unfold library. repeat (constructor; [vm_compute; reflexivity|]). constructor.
Qed.

(** The text, after a line break:  int main() { if (3 - 2) putchar(66); return 7; } *)
Definition text6 : list Z := 10 :: zs "int main() { if (3 - 2) putchar(66); return 7; }"%string.
Definition ds6 : list gdecl :=
  [DFun id_main [] CLang.tint (IStmt (SIf (EPar (EBin Sub (ELit 3) (ELit 2))) (SExpr (ECall id_putchar (ACons (ELit 66) ANil))) SSkip) (IStmt (SReturn (Some (ELit 7))) INil))].
Definition lts6 : list ltok :=
  [LId (zs "int"%string); LId (zs "main"%string); LOp LPAR; LOp RPAR; LOp LBRACE; LId (zs "if"%string); LOp LPAR; LNum Literals.INTEGER (-3); LOp MINUS; LNum Literals.INTEGER (-2); LOp RPAR;
   LId (zs "putchar"%string); LOp LPAR; LNum Literals.INTEGER (-66); LOp RPAR; LOp SEMI; LId (zs "return"%string); LNum Literals.INTEGER (-7); LOp SEMI; LOp RBRACE].
Definition o_ (k : Z) : token := (k, 0).
Definition n_ (k : Z) : token := (INTEGER, - k).
Definition ts6 : list token :=
  [o_ INT_KW; (IDENTIFIER, id_main); o_ LPAR; o_ RPAR; o_ LBRACE; o_ IF_KW; o_ LPAR; n_ 3; o_ MINUS; n_ 2; o_ RPAR;
   (IDENTIFIER, id_putchar); o_ LPAR; n_ 66; o_ RPAR; o_ SEMI; o_ RETURN_KW; n_ 7; o_ SEMI; o_ RBRACE].
Definition int_ : ast := new_ast0 INT_KW 0.
Definition lit_ (k : Z) : ast := new_ast0 INTEGER (- k).
Definition if6 : ast := new_ast3 IF_KW (new_ast1 PARENS (new_ast2 MINUS (lit_ 3) (lit_ 2))) (new_ast2 LPAR (id_ id_putchar) (new_ast2 LIST (lit_ 66) (Raw 0))) (Raw 0).
Definition ret6 : ast := new_ast1 RETURN_KW (lit_ 7).
Definition ast6 : list ast :=
  [new_ast2 FUN_DECL (new_ast3 DECL (id_ id_main) (new_ast3 LPAR int_ (list_node []) (Raw 0)) (Raw 0)) (block [if6; ret6])].

Notation G_ := (G false no_types0 join0).
Notation H_ := (H false no_types0 join0).
Lemma leaf_post t x : is_leaf t = true -> G_ GPost [(t, x)] (OE (new_ast0 t x)).
Proof. intros E. apply g_post, g_leaf, E. Qed.
Lemma post_bin k ts e : G_ GPost ts e -> G_ (GBin k) ts e.
Proof. intros E. induction k as [|k IH]; [apply g_bin0, g_cast0, g_unary, E|apply g_binS, IH]. Qed.
Lemma post_assign ts e : G_ GPost ts e -> G_ GAssign ts e.
Proof. intros E. apply g_assign0, g_cond0, post_bin, E. Qed.
Lemma bin_up k ts e : (k <= 10)%nat -> G_ (GBin k) ts e -> G_ (GBin 10) ts e.
Proof. intros L E. replace 10%nat with (10 - k + k)%nat by lia. induction (10 - k)%nat as [|j IH]; [exact E|apply g_binS, IH]. Qed.
Lemma sub6 : G_ GExpr [n_ 3; o_ MINUS; n_ 2] (OE (new_ast2 MINUS (lit_ 3) (lit_ 2))).
Proof.
  apply g_expr0, g_assign0, g_cond0, (bin_up 2); [lia|].
  apply (g_bin false no_types0 join0 1 [n_ 3] (lit_ 3) MINUS 0 [n_ 2] (lit_ 2)); [lia|apply post_bin, leaf_post; reflexivity|vm_compute; tauto|apply post_bin, leaf_post; reflexivity].
Qed.
Lemma call6 : G_ GExpr [(IDENTIFIER, id_putchar); o_ LPAR; n_ 66; o_ RPAR] (OE (new_ast2 LPAR (id_ id_putchar) (new_ast2 LIST (lit_ 66) (Raw 0)))).
Proof.
  apply g_expr0, post_assign.
  apply (g_call false no_types0 join0 [(IDENTIFIER, id_putchar)] (id_ id_putchar) 0 [n_ 66] (new_ast2 LIST (lit_ 66) (Raw 0)) 0); [apply leaf_post; reflexivity|].
  apply g_arg1, post_assign, leaf_post. reflexivity.
Qed.
Lemma body6 : H_ HItems [o_ IF_KW; o_ LPAR; n_ 3; o_ MINUS; n_ 2; o_ RPAR; (IDENTIFIER, id_putchar); o_ LPAR; n_ 66; o_ RPAR; o_ SEMI; o_ RETURN_KW; n_ 7; o_ SEMI] (QL [if6; ret6]).
Proof.
  apply (h_items_s false no_types0 join0 true [o_ IF_KW; o_ LPAR; n_ 3; o_ MINUS; n_ 2; o_ RPAR; (IDENTIFIER, id_putchar); o_ LPAR; n_ 66; o_ RPAR; o_ SEMI] if6 [o_ RETURN_KW; n_ 7; o_ SEMI] [ret6]).
  - apply (h_if false no_types0 join0 false 0 0 [n_ 3; o_ MINUS; n_ 2] (new_ast2 MINUS (lit_ 3) (lit_ 2)) 0 [(IDENTIFIER, id_putchar); o_ LPAR; n_ 66; o_ RPAR; o_ SEMI] (new_ast2 LPAR (id_ id_putchar) (new_ast2 LIST (lit_ 66) (Raw 0)))); [exact sub6|].
    apply (h_expr false no_types0 join0 [(IDENTIFIER, id_putchar); o_ LPAR; n_ 66; o_ RPAR] _ 0), h_opt, call6.
  - apply (h_items_s false no_types0 join0 false [o_ RETURN_KW; n_ 7; o_ SEMI] ret6 [] []); [|apply h_items0].
    apply (h_return false no_types0 join0 0 [n_ 7] (lit_ 7) 0), h_opt, g_expr0, post_assign, leaf_post. reflexivity.
Qed.
Lemma file6 : F false join0 no_types0 ts6 ast6.
Proof.
  apply (f_decl false join0 no_types0 HFun ts6 (hd (Raw 0) ast6) [] []); [right; reflexivity| |apply f_nil].
  apply (h_fun false no_types0 join0 [o_ INT_KW] int_ 0 [(IDENTIFIER, id_main); o_ LPAR; o_ RPAR] (id_ id_main) [] false [] 0
    [o_ IF_KW; o_ LPAR; n_ 3; o_ MINUS; n_ 2; o_ RPAR; (IDENTIFIER, id_putchar); o_ LPAR; n_ 66; o_ RPAR; o_ SEMI; o_ RETURN_KW; n_ 7; o_ SEMI] [if6; ret6] 0).
  - apply (h_spec false no_types0 join0 [o_ INT_KW] int_ [] []); [|cbn; lia|congruence].
    apply (h_type false no_types0 join0 [o_ INT_KW] int_ [] [] [] []); [|apply h_nil]. apply h_core, core_basic. vm_compute. tauto.
  - discriminate.
  - apply g_direct. apply (g_fun false no_types0 join0 false [(IDENTIFIER, id_main)] (id_ id_main) [] 0 [] [] false 0); [apply g_name|discriminate|apply g_params0].
  - cbn. trivial.
  - constructor.
  - exact body6.
Qed.
Lemma denotes6 : denotes ast6 ds6.
Proof.
  apply (dn_cons _ ds6 [] []); [|constructor].
  apply (ig_fun id_main int_ CLang.tint [] [] [if6; ret6]).
  - apply (it_int INT_KW 4 0). vm_compute. tauto.
  - constructor.
  - apply ii_stmt; [|apply ii_stmt; [|constructor]].
    + apply is_if; [|apply is_expr|constructor].
      * apply (ie_un PARENS EPar); [vm_compute; tauto|]. apply (ie_bin MINUS Sub); [vm_compute; tauto|apply ie_lit|apply ie_lit].
      * apply ie_call. apply ia_cons; [apply ie_lit|constructor].
    + apply is_return, io_some, ie_lit.
Qed.
(** The text is that program, by C's rules. *)
Theorem text6_program : C_program idn0 text6 ds6.
Proof.
  exists lts6, ts6, ast6. split; [|split; [|split; [|split; [|split; [exact file6|exact denotes6]]]]].
  - apply c07_only_those; [vm_compute; reflexivity|]. intros t H. split; intros ->; unfold lts6 in H; cbn [In] in H; repeat (destruct H as [H|H]; [discriminate H|]); exact H.
  - unfold lts6. cbn [no_dots]. repeat split; intros [X _]; discriminate X.
  - intros n H. unfold lts6 in H. cbn [In] in H. assert (A : existsb (fun p => leqb n p) predefined = false).
    { repeat (destruct H as [H|H]; [try discriminate H; injection H as <-; vm_compute; reflexivity|]). destruct H. }
    intros X. assert (existsb (fun p => leqb n p) predefined = true); [|congruence]. apply existsb_exists. exists n. split; [exact X|apply leqb_eq; reflexivity].
  - unfold lts6, ts6. repeat (apply Forall2_cons; [cbn [C_token fst snd]|]); [..|apply Forall2_nil].
    all: match goal with
      | |- In _ _ /\ _ \/ _ => first [left; split; [apply mem2_in; vm_compute; reflexivity|reflexivity]
                                    |right; split; [intros kw X; assert (E : existsb (fun p => leqb (fst p) (zs "main"%string) || leqb (fst p) (zs "putchar"%string)) C_keywords = false) by (vm_compute; reflexivity);
                                       rewrite <- not_true_iff_false, existsb_exists in E; apply E; eexists; split; [exact X|vm_compute; reflexivity]|vm_compute; reflexivity]]
      | |- _ => reflexivity end.
Qed.
(** C: it prints "B" and ends with status 7, whatever its arguments and input. *)
Theorem text6_c : forall W, W = 4 \/ W = 8 -> forall La m0 argc argv inp, cprog W ds6 100 La m0 argc argv inp (fun c st => c = 7 /\ cout st = [66]).
Proof.
  intros W HW La m0 argc argv inp. unfold cprog, ds6. cbn [globals]. intros m Hm1 Hm2 Hm3. cbn [inits].
  match goal with |- match ?f with _ => _ end => let v := eval vm_compute in f in change f with v end; cbv beta iota; cbn [List.length firstn]. split; [lia|]. cbn [bindp].
  change 100%nat with (S (S (S (S (S (S (S (S (S (S 90)))))))))).
  destruct HW as [-> | ->]; ev; cbn [Z.eqb negb b2i]; ev; (apply x_call1; ev; apply x_putc; [reflexivity|]; cbn [cmem cout cin app]; ev; split; reflexivity).
Qed.
Definition cg6 (W : Z) : list hop * gst := match codegen_prog W ds6 with Some p => p | None => ([], GS [] 0 0 [] false 0) end.
Definition by6 (W : Z) : list Z := assemble W (hops W (fst (cg6 W))).
Lemma ds6_compiled : forall W, W = 4 \/ W = 8 -> compiled W ds6 (fst (cg6 W)) (snd (cg6 W)) (by6 W).
Proof.
  intros W HW. constructor; [exact HW| | | | | |reflexivity].
  all: destruct HW as [-> | ->].
  all: match goal with |- _ = true => vm_compute; reflexivity | |- _ <= _ => apply Z.leb_le; vm_compute; reflexivity | _ => unfold cg6; vm_compute; reflexivity end.
Qed.
Theorem text6_compiles : forall W, W = 4 \/ W = 8 -> pnut_compiles idn0 W text6 (snd (cg6 W)) (by6 W).
Proof. intros W HW. exists ds6, (fst (cg6 W)). split; [apply c56_front_partial, text6_program|apply ds6_compiled, HW]. Qed.
Definition start6 (W : Z) : mst := MS (upd (fun _ => 0) 4 2147418112) (image (by6 W)) 4198400 None [] [] [268435456; 536870912].
Lemma text6_started : forall W, W = 4 \/ W = 8 -> started W (by6 W) (galloc (snd (cg6 W))) 4198400 1879048192 2147418112 268435456 536870912 [] 1 [] (start6 W).
Proof.
  intros W HW.
  assert (A : galloc (snd (cg6 W)) <= 100) by (destruct HW as [-> | ->]; apply Z.leb_le; vm_compute; reflexivity).
  assert (A0 : 0 <= galloc (snd (cg6 W))) by (destruct HW as [-> | ->]; apply Z.leb_le; vm_compute; reflexivity).
  assert (B : zlen (by6 W) <= 10000) by (destruct HW as [-> | ->]; apply Z.leb_le; vm_compute; reflexivity).
  assert (D : forallb (fun b => (0 <=? b) && (b <? 256)) (by6 W) = true) by (destruct HW as [-> | ->]; vm_compute; reflexivity).
  assert (M : 2 ^ 32 <= MOD W) by (destruct HW as [-> | ->]; apply Z.leb_le; vm_compute; reflexivity).
  assert (W = 4 \/ W = 8) by exact HW. pose proof (zlen_nonneg (by6 W)).
  constructor; cbn [start6 rg mm pc outp X86Sem.inp maps].
  - constructor; unfold RT_HEAP_SIZE; try lia. intros x (b & [] & _).
  - intros q. unfold upd. destruct (q =? 4); lia.
  - intros a. unfold image. destruct ((4198400 <=? a) && (a <? 4198400 + zlen (by6 W))) eqn:E; [|destruct (a =? 2147418112); lia].
    rewrite forallb_forall in D. apply andb_true_iff in E as [E1 E2]. rewrite Z.leb_le in E1. rewrite Z.ltb_lt in E2.
    assert (X : In (nth (Z.to_nat (a - 4198400)) (by6 W) 0) (by6 W)). { apply nth_In. unfold zlen in E2. lia. }
    apply D in X. apply andb_true_iff in X as [X1 X2]. lia.
  - apply at_nth. intros i Hi. unfold image. rewrite (proj2 (Z.leb_le 4198400 (4198400 + i))), (proj2 (Z.ltb_lt (4198400 + i) (4198400 + zlen (by6 W)))) by lia. cbv beta iota delta [andb]. replace (4198400 + i - 4198400) with i by lia. reflexivity.
  - reflexivity.
  - reflexivity.
  - assert (E : forall x, 2147418112 <= x < 2147418112 + 8 -> image (by6 W) x = if x =? 2147418112 then 1 else 0). { intros x Hx. unfold image. rewrite (proj2 (Z.ltb_ge x (4198400 + zlen (by6 W)))) by lia. rewrite andb_false_r. reflexivity. }
    rewrite (rd_ext (Wn W) (fun x => if x =? 2147418112 then 1 else 0) (image (by6 W))). 
    + destruct HW as [-> | ->]; vm_compute; reflexivity.
    + intros x Hx. apply E. assert (Z.of_nat (Wn W) <= 8) by (destruct HW as [-> | ->]; vm_compute; discriminate). lia.
  - reflexivity.
  - reflexivity.
  - reflexivity.
Qed.
(** So the machine prints "B" and exits with status 7, or the stack is exhausted ... *)
Theorem c56_instance : forall W, W = 4 \/ W = 8 -> exists k, run W 1879048192 k (start6 W) = Over \/ exists c s', run W 1879048192 k (start6 W) = Exit c s' /\ c = 7 /\ outp s' = [66].
Proof.
  intros W HW. eapply (c56_text_to_process_partial idn0 W text6 ds6 _ _ text6_program (text6_compiles W HW)) with (Q := fun c o => c = 7 /\ o = [66]); [|exact (text6_started W HW)|].
  - destruct HW as [-> | ->]; apply Z.ltb_lt; vm_compute; reflexivity.
  - apply text6_c, HW.
Qed.
(** ... and it is not. *)
Theorem c56_instance_exec : forall W, W = 4 \/ W = 8 -> exists k, exec W ds6 k = Some (7, [66]).
Proof. intros W [-> | ->]; exists 400%nat; vm_compute; reflexivity. Qed.
