(** * A program compiled and run: the hypotheses of C48 hold of it *)
From Coq Require Import ZArith List Lia Bool.
From Verif Require Import Base Asm AsmProof Elf PropAsm X86 X86Proof X86Sem NMach NPtr CLang CProg NGen NSupp NEqs NLink NRt NProg NWhole NWhole3 NWhole4 NWhole5 PropNative.
Import ListNotations.
Open Scope Z_scope.

(** int g = 5;
    int tri(int n) { if (n == 0) return 0; ; return n + tri(n - 1); }
    int main() { g = tri(g + 6); putchar(g); return g - 60; } *)
Definition tri_body : items :=
  IStmt (SIf (EBin Eq (EVar 22) (ELit 0)) (SReturn (Some (ELit 0))) SSkip)
  (IStmt (SReturn (Some (EBin Add (EVar 22) (ECall 21 (ACons (EBin Sub (EVar 22) (ELit 1)) ANil))))) INil).
Definition ds1 : list gdecl :=
  [DVar 20 tint (Some (ELit 5)); DFun 21 [(22, tint)] tint tri_body;
   DFun id_main [] tint
     (IStmt (SExpr (EAsg (EVar 20) (ECall 21 (ACons (EBin Add (EVar 20) (ELit 6)) ANil))))
     (IStmt (SExpr (ECall id_putchar (ACons (EVar 20) ANil)))
     (IStmt (SReturn (Some (EBin Sub (EVar 20) (ELit 60)))) INil)))].

Lemma load_int m a v : - 2 ^ 31 <= v < 2 ^ 31 -> forall W, loadv W tint (storev W tint m a v) a = v.
Proof.
  intros H W. unfold loadv, storev, tint. cbn [csize]. rewrite rd_wrb. change (256 ^ Z.of_nat (Z.to_nat 4)) with (2 ^ 32). unfold sgnn. change (8 * 4) with 32. change (2 ^ (32 - 1)) with (2 ^ 31).
  pose proof (Z.mod_pos_bound v (2 ^ 32)). destruct (Z_lt_le_dec v 0).
  - assert (v mod 2 ^ 32 = v + 2 ^ 32) by (symmetry; apply Z.mod_unique with (-1); lia). bdestr; lia.
  - rewrite Z.mod_small by lia. bdestr; lia.
Qed.
Lemma load_ext W m m' a : (forall x, a <= x < a + 4 -> m' x = m x) -> loadv W tint m' a = loadv W tint m a.
Proof. intros H. unfold loadv, tint. f_equal. apply rd_ext. exact H. Qed.

Lemma store_out W m a v x : ~ (a <= x < a + 4) -> storev W tint m a v x = m x.
Proof. intros H. unfold storev, tint. cbn [csize]. apply wrb_out. change (Z.of_nat (Z.to_nat 4)) with 4. lia. Qed.

Section X.
Variable W : Z.
Hypothesis HW : W = 4 \/ W = 8.
Notation funs := (cfuns ds1).

Notation ty_ E e := (ctype W funs (tys (vars E)) e).
Lemma x_lit gv n E z s (Q : Z -> cst -> Prop) : 0 <= z < 2 ^ 31 -> Q z s -> ce W funs gv (S n) E (ELit z) s Q.
Proof. intros H1 H2. rewrite ce_eq. split; assumption. Qed.
Lemma lookup_tys V x a (t : ty) : lookupZ V x = Some (a, t) -> lookupZ (tys V) x = Some t.
Proof. induction V as [|[y [b u]] V IH]; cbn [lookupZ tys map fst snd]; [discriminate|]. destruct (_ =? _); [intros H; inversion H; reflexivity|exact IH]. Qed.
Lemma x_var gv n E x a s (Q : Z -> cst -> Prop) : lookupZ (vars E) x = Some (a, tint) -> inblock (live E) a 4 -> Q (loadv W tint (cmem s) a) s -> ce W funs gv (S (S n)) E (EVar x) s Q.
Proof.
  intros H1 H2 H3. rewrite ce_eq. cbv beta iota delta [ce_body]. cbn [ctype]. rewrite (lookup_tys _ _ _ _ H1). rewrite cl_eq. cbv beta iota delta [cl_body].
  rewrite H1. cbv beta iota delta [reads tint]. split; assumption.
Qed.
Lemma x_bin gv n E o a b s (Q : Z -> cst -> Prop) : ty_ E a = Some tint -> ty_ E b = Some tint ->
  ce W funs gv n E a s (fun x s => ce W funs gv n E b s (fun y s => oq (bval W o tint tint x y) Q s)) -> ce W funs gv (S n) E (EBin o a b) s Q.
Proof. intros H1 H2 H3. rewrite ce_eq. cbv beta iota zeta delta [ce_body]. rewrite H1, H2. exact H3. Qed.
Lemma x_call1 gv n E f a s (Q : Z -> cst -> Prop) : ce W funs gv (S n) E a s (fun v s => ccall W funs gv (S (S n)) (live E) f [v] s Q) -> ce W funs gv (S (S (S n))) E (ECall f (ACons a ANil)) s Q.
Proof. intros H. rewrite ce_eq. cbv beta iota delta [ce_body]. rewrite cargs_eq. cbv beta iota delta [cargs_body]. rewrite cargs_eq. cbv beta iota delta [cargs_body]. exact H. Qed.

Lemma x_ret gv n E e s (Q : out -> cst -> Prop) : ce W funs gv n E e s (fun v s => Q (OReturn v) s) -> cs W funs gv (S n) E (SReturn (Some e)) s Q.
Proof. intros H. rewrite cs_eq. exact H. Qed.
Lemma x_if gv n E e c1 c2 s (Q : out -> cst -> Prop) : ce W funs gv n E e s (fun v s => cs W funs gv n E (if v =? 0 then c2 else c1) s Q) -> cs W funs gv (S n) E (SIf e c1 c2) s Q.
Proof. intros H. rewrite cs_eq. exact H. Qed.
Lemma x_skip gv n E s (Q : out -> cst -> Prop) : Q ONormal s -> cs W funs gv (S n) E SSkip s Q.
Proof. intros H. rewrite cs_eq. exact H. Qed.
Lemma x_expr gv n E e s (Q : out -> cst -> Prop) : ce W funs gv n E e s (fun _ s => Q ONormal s) -> cs W funs gv (S n) E (SExpr e) s Q.
Proof. intros H. rewrite cs_eq. exact H. Qed.
Lemma x_item gv n E c l s (Q : out -> cst -> Prop) : cs W funs gv n E c s (fun o s => match o with ONormal => ci W funs gv n E l s Q | _ => Q o s end) -> ci W funs gv (S n) E (IStmt c l) s Q.
Proof. intros H. rewrite ci_eq. exact H. Qed.
Lemma conv_int x : - 2 ^ 31 <= x < 2 ^ 31 -> conv W tint x = x.
Proof.
  intros H. cbv beta iota zeta delta [conv tint]. change (8 * 4 - 1) with 31. change (8 * 4) with 32.
  pose proof (Z.mod_pos_bound x (2 ^ 32)). destruct (Z_lt_le_dec x 0).
  - assert (x mod 2 ^ 32 = x + 2 ^ 32) by (symmetry; apply Z.mod_unique with (-1); lia). bdestr; lia.
  - rewrite Z.mod_small by lia. bdestr; lia.
Qed.
Lemma bv_add x y : - 2 ^ 31 <= x + y < 2 ^ 31 -> - 2 ^ 31 <= x < 2 ^ 31 -> - 2 ^ 31 <= y < 2 ^ 31 -> bval W Add tint tint x y = Some (x + y).
Proof. intros A B C. unfold bval. change (uac tint tint) with (Some tint). cbn [decay tint is_cmp exact]. change (TInt 4 true) with tint. rewrite !conv_int by lia. unfold fit, tint, inrb. change (8 * 4 - 1) with 31. bdestr; try reflexivity; lia. Qed.
Lemma bv_sub x y : - 2 ^ 31 <= x - y < 2 ^ 31 -> - 2 ^ 31 <= x < 2 ^ 31 -> - 2 ^ 31 <= y < 2 ^ 31 -> bval W Sub tint tint x y = Some (x - y).
Proof. intros A B C. unfold bval. change (uac tint tint) with (Some tint). cbn [decay tint is_cmp exact]. change (TInt 4 true) with tint. rewrite !conv_int by lia. unfold fit, tint, inrb. change (8 * 4 - 1) with 31. bdestr; try reflexivity; lia. Qed.
Lemma bv_eq x y : - 2 ^ 31 <= x < 2 ^ 31 -> - 2 ^ 31 <= y < 2 ^ 31 -> bval W Eq tint tint x y = Some (b2i (x =? y)).
Proof. intros A B. unfold bval. change (uac tint tint) with (Some tint). cbn [decay tint is_cmp cmpv]. change (TInt 4 true) with tint. rewrite !conv_int by lia. reflexivity. Qed.
(** What tri computes. *)
Lemma tri_ok gv k : forall L s (Q : Z -> cst -> Prop) v n, (k = Z.to_nat v)%nat -> 0 <= v <= 1000 -> (10 * k + 20 <= n)%nat ->
  (forall m, (forall x, inlive L x -> m x = cmem s x) -> Q (v * (v + 1) / 2) (setmem s m)) ->
  ccall W funs gv n L 21 [v] s Q.
Proof.
  induction k as [|k IH]; intros L s Q v n Ek Hv Hn HQ.
  all: do 10 (destruct n as [|n]; [lia|]). 
  all: rewrite ccall_eq; cbv beta iota delta [ccall_body]; change (funs 21) with (Some (FUser [(22, tint)] tint tri_body)); cbv beta iota; cbn [bindp]; split; [reflexivity|].
  all: intros a (F1 & F2 & F3); change (csize W tint) with 4 in *.
  all: assert (Hb : inblock ((a, 4) :: L) a 4) by (exists (a, 4); cbn [fst snd]; split; [now left|lia]).
  all: unfold tri_body; apply x_item, x_if, x_bin; [reflexivity|reflexivity|]; eapply x_var; [reflexivity|exact Hb|]; cbn [cmem setmem]; rewrite load_int by lia.
  all: apply x_lit; [lia|]; rewrite bv_eq by lia; cbn [oq].
  - replace v with 0 by lia. change (b2i (0 =? 0) =? 0) with false. cbv iota. apply x_ret, x_lit; [lia|]. cbv beta iota. rewrite conv_int by lia.
    replace v with 0 in HQ by lia. eapply HQ. intros x Hx. cbn [cmem setmem]. apply store_out. intros HH. exact (F3 x HH Hx).
  - destruct (Z.eqb_spec v 0); [lia|]. cbn [b2i]. change (0 =? 0) with true. cbv iota. apply x_skip. cbv iota. apply x_item, x_ret.
    apply x_bin; [reflexivity|reflexivity|]. eapply x_var; [reflexivity|exact Hb|]. cbn [cmem setmem]. rewrite load_int by lia.
    apply x_call1. apply x_bin; [reflexivity|reflexivity|]. eapply x_var; [reflexivity|exact Hb|]. cbn [cmem setmem]. rewrite load_int by lia.
    apply x_lit; [lia|]. rewrite bv_sub by lia. cbn [oq]. cbn [live]. apply IH; [lia|lia|lia|].
    intros m Hm. assert (v - 1 + 1 = v) by lia. 
    assert (Hd : v + (v - 1) * (v - 1 + 1) / 2 = v * (v + 1) / 2). { replace (v * (v + 1)) with ((v - 1) * (v - 1 + 1) + v * 2) by lia. rewrite Z.div_add by lia. lia. }
    assert (0 <= (v - 1) * (v - 1 + 1) / 2 <= 1000 * 1000). { split; [apply Z.div_pos; nia|apply Z.div_le_upper_bound; nia]. }
    rewrite bv_add by lia. cbn [oq]. rewrite conv_int by lia. rewrite Hd. eapply HQ.
    intros x Hx. rewrite Hm. 2: { destruct Hx as (b & B1 & B2). exists b. split; [right; exact B1|exact B2]. } 
    cbn [cmem setmem]. apply store_out. intros HH. exact (F3 x HH Hx).
Qed.

Lemma x_asg gv n E x a e s (Q : Z -> cst -> Prop) : lookupZ (vars E) x = Some (a, tint) ->
  ce W funs gv (S n) E e s (fun v s => writes W E tint a v s (fun s => Q (conv W tint v) s)) -> ce W funs gv (S (S n)) E (EAsg (EVar x) e) s Q.
Proof.
  intros H1 H3. rewrite ce_eq. cbv beta iota zeta delta [ce_body]. cbn [ctype]. rewrite (lookup_tys _ _ _ _ H1). rewrite cl_eq. cbv beta iota delta [cl_body]. rewrite H1. exact H3.
Qed.
(** The program prints "B" and ends with status 6, whatever its arguments and input. *)
Theorem ds1_c : forall La m0 argc argv inp, cprog W ds1 1000 La m0 argc argv inp (fun c st => c = 6 /\ cout st = [66]).
Proof.
  intros La m0 argc argv inp. unfold cprog. cbn [globals ds1]. intros a (F1 & F2 & F3) m Hm1 Hm2 Hm3. change (csize W tint) with 4 in *.
  set (L := (a, 4) :: La) in *. set (V := [(20, (a, tint))]). 
  assert (Hb : inblock L a 4) by (exists (a, 4); cbn [fst snd]; split; [now left|lia]).
  assert (Hl : lookupZ V 20 = Some (a, tint)) by reflexivity.
  assert (Hi : forall x, a <= x < a + 4 -> inlive L x) by (intros x Hx; exists (a, 4); cbn [fst snd]; split; [now left|lia]).
  unfold ds1 at 2. cbn [inits]. rewrite Hl. change 1000%nat with (S 999). apply x_lit; [lia|]. split; [reflexivity|]. split; [exact Hb|].
  change (fun_def ds1 id_main) with (Some (@nil (Z * ty), tint, match nth 2 ds1 (DProto 0 TVoid) with DFun _ _ _ b => b | _ => INil end)). cbn [nth ds1]. cbv beta iota. cbn [List.length firstn]. split; [lia|]. cbn [bindp].
  change (S 999) with (S (S (S (S (S (S (S 993))))))). apply x_item, x_expr. cbn [setmem cmem cout cin].
  eapply x_asg; [exact Hl|]. apply x_call1. apply x_bin; [reflexivity|reflexivity|]. eapply x_var; [exact Hl|exact Hb|]. cbn [cmem setmem]. rewrite load_int by lia. apply x_lit; [lia|]. rewrite bv_add by lia. cbn [oq].
  eapply tri_ok; [reflexivity|lia|lia|]. intros m' Hm'. change ((5 + 6) * (5 + 6 + 1) / 2) with 66. split; [reflexivity|]. split; [exact Hb|]. cbv beta iota. cbn [setmem cmem cout cin].
  apply x_item, x_expr, x_call1. eapply x_var; [exact Hl|exact Hb|]. cbn [cmem setmem]. rewrite load_int by lia.
  rewrite ccall_eq. change (cfuns ds1 id_putchar) with (Some FPutchar). cbv beta iota delta [ccall_body]. change (66 mod 256) with 66. cbn [setmem cmem cout cin app].
  apply x_item, x_ret. apply x_bin; [reflexivity|reflexivity|]. eapply x_var; [exact Hl|exact Hb|]. cbn [cmem setmem]. rewrite load_int by lia. apply x_lit; [lia|]. rewrite bv_sub by lia. cbn [oq].
  rewrite conv_int by lia. split; reflexivity.
Qed.
End X.

(** ** Compiled, for both word sizes *)
Definition cg (W : Z) : list hop * gst := match codegen_prog W ds1 with Some p => p | None => ([], GS [] 0 0 [] false 0) end.
Definition by1 (W : Z) : list Z := assemble W (hops W (fst (cg W))).
Theorem ds1_compiled : forall W, W = 4 \/ W = 8 -> compiled W ds1 (fst (cg W)) (snd (cg W)) (by1 W).
Proof.
  intros W HW. constructor; [exact HW| | | | | |reflexivity].
  all: destruct HW as [-> | ->].
  all: match goal with |- _ = true => vm_compute; reflexivity | |- _ <= _ => apply Z.leb_le; vm_compute; reflexivity | _ => unfold cg; vm_compute; reflexivity end.
Qed.
(** A process image: the code at 0x401000, the stack from 0x70000000 to 0x7fff0000 with the argument count 1. *)
Definition mem1 (W : Z) (a : Z) : Z := if (4198400 <=? a) && (a <? 4198400 + zlen (by1 W)) then nth (Z.to_nat (a - 4198400)) (by1 W) 0 else if a =? 2147418112 then 1 else 0.
Definition start1 (W : Z) : mst := MS (upd (fun _ => 0) 4 2147418112) (mem1 W) 4198400 None [] [] [268435456; 536870912].
Lemma at_nth (l : list Z) c p : (forall i, 0 <= i < zlen l -> c (p + i) = nth (Z.to_nat i) l 0) -> at_ c p l.
Proof.
  revert c p. induction l as [|b l IH]; intros c p H; cbn [at_]; [exact I|]. rewrite zlen_cons in H. pose proof (zlen_nonneg l). split.
  - specialize (H 0 ltac:(lia)). rewrite Z.add_0_r in H. exact H.
  - apply IH. intros i Hi. replace (p + 1 + i) with (p + (i + 1)) by lia. rewrite H by lia. replace (Z.to_nat (i + 1)) with (S (Z.to_nat i)) by lia. reflexivity.
Qed.
Theorem ds1_started : forall W, W = 4 \/ W = 8 -> started W (by1 W) (galloc (snd (cg W))) 4198400 1879048192 2147418112 268435456 536870912 [] 1 [] (start1 W).
Proof.
  intros W HW.
  assert (A : galloc (snd (cg W)) <= 100) by (destruct HW as [-> | ->]; apply Z.leb_le; vm_compute; reflexivity).
  assert (A0 : 0 <= galloc (snd (cg W))) by (destruct HW as [-> | ->]; apply Z.leb_le; vm_compute; reflexivity).
  assert (B : zlen (by1 W) <= 10000) by (destruct HW as [-> | ->]; apply Z.leb_le; vm_compute; reflexivity).
  assert (D : forallb (fun b => (0 <=? b) && (b <? 256)) (by1 W) = true) by (destruct HW as [-> | ->]; vm_compute; reflexivity).
  assert (M : 2 ^ 32 <= MOD W) by (destruct HW as [-> | ->]; apply Z.leb_le; vm_compute; reflexivity).
  assert (W = 4 \/ W = 8) by exact HW. pose proof (zlen_nonneg (by1 W)).
  constructor; cbn [start1 rg mm pc outp X86Sem.inp maps].
  - constructor; unfold RT_HEAP_SIZE; try lia. intros x (b & [] & _).
  - intros q. unfold upd. destruct (q =? 4); lia.
  - intros a. unfold mem1. destruct ((4198400 <=? a) && (a <? 4198400 + zlen (by1 W))) eqn:E; [|destruct (a =? 2147418112); lia].
    rewrite forallb_forall in D. apply andb_true_iff in E as [E1 E2]. rewrite Z.leb_le in E1. rewrite Z.ltb_lt in E2.
    assert (X : In (nth (Z.to_nat (a - 4198400)) (by1 W) 0) (by1 W)). { apply nth_In. unfold zlen in E2. lia. }
    apply D in X. apply andb_true_iff in X as [X1 X2]. lia.
  - apply at_nth. intros i Hi. unfold mem1. rewrite (proj2 (Z.leb_le 4198400 (4198400 + i))), (proj2 (Z.ltb_lt (4198400 + i) (4198400 + zlen (by1 W)))) by lia. cbv beta iota delta [andb]. replace (4198400 + i - 4198400) with i by lia. reflexivity.
  - reflexivity.
  - reflexivity.
  - assert (E : forall x, 2147418112 <= x < 2147418112 + 8 -> mem1 W x = if x =? 2147418112 then 1 else 0). { intros x Hx. unfold mem1. rewrite (proj2 (Z.ltb_ge x (4198400 + zlen (by1 W)))) by lia. rewrite andb_false_r. reflexivity. }
    rewrite (rd_ext (Wn W) (fun x => if x =? 2147418112 then 1 else 0) (mem1 W)). 
    + destruct HW as [-> | ->]; vm_compute; reflexivity.
    + intros x Hx. apply E. assert (Z.of_nat (Wn W) <= 8) by (destruct HW as [-> | ->]; vm_compute; discriminate). lia.
  - reflexivity.
  - reflexivity.
  - reflexivity.
Qed.
(** So the machine prints "B" and exits with status 6, or the stack is exhausted. *)
Theorem ds1_runs : forall W, W = 4 \/ W = 8 -> exists k, run W 1879048192 k (start1 W) = Over \/ exists c s', run W 1879048192 k (start1 W) = Exit c s' /\ c = 6 /\ outp s' = [66].
Proof.
  intros W HW. eapply (c48_native_program_partial W ds1 _ _ _ (ds1_compiled W HW)) with (Q := fun c o => c = 6 /\ o = [66]); [|exact (ds1_started W HW)|].
  - destruct HW as [-> | ->]; apply Z.ltb_lt; vm_compute; reflexivity.
  - apply ds1_c.
Qed.
