(** * C34, C35, C48 for structures and unions: a program compiled and run *)
From Coq Require Import ZArith List Lia Bool.
From Verif Require Import Base Asm AsmProof Elf PropAsm X86 X86Proof X86Sem NMach NPtr CLang CProg NGen NSupp NEqs NLink NRt NProg NWhole NWhole3 NWhole4 NWhole5 PropNative PropNative4.
From Verif Require Layout.
Import ListNotations.
Open Scope Z_scope.

(** struct node { char c; struct node *next; };  union wrd { int i; char b; };
    struct node a[2];  union wrd u;
    int main() {
      a[0].c = 65;  a[0].next = &a[1];  a[0].next->c = 66;  u.i = 323;
      putchar(a[0].c);  putchar(a[1].c);  putchar(u.b);
      a[0] = a[1];  putchar(a[0].c);
      return 0; } *)
Definition chr := TInt 1 true.
Definition node (W : Z) : ty := TStruct false 40 (2 * W).
Definition wrd : ty := TStruct true 41 4.
Definition a_ (k : Z) : expr := EIdx (EVar 20) (ELit k).
Definition put (e : expr) : stmt := SExpr (ECall id_putchar (ACons e ANil)).
Fixpoint seq (l : list stmt) : items := match l with [] => INil | c :: l => IStmt c (seq l) end.
Definition ds5 (W : Z) : list gdecl :=
  [DStruct 40 [(1, (0, chr)); (2, (1, TPtr (node W)))]; DStruct 41 [(1, (0, tint)); (2, (0, chr))];
   DVar 20 (TArr (node W) 2) None; DVar 21 wrd None;
   DFun id_main [] tint (seq [
     SExpr (EAsg (EDot (a_ 0) 1) (ELit 65));
     SExpr (EAsg (EDot (a_ 0) 2) (EAddr (a_ 1)));
     SExpr (EAsg (EArrow (EDot (a_ 0) 2) 1) (ELit 66));
     SExpr (EAsg (EDot (EVar 21) 1) (ELit 323));
     put (EDot (a_ 0) 1); put (EDot (a_ 1) 1); put (EDot (EVar 21) 2);
     SExpr (EAsg (a_ 0) (a_ 1)); put (EDot (a_ 0) 1);
     SReturn (Some (ELit 0))])].
(** The offsets and sizes are those that C33 is about. *)
Definition lnode := Layout.TAgg false [(Some 1, Layout.TBase Layout.BChar); (Some 2, Layout.TPtr)].
Definition lwrd := Layout.TAgg true [(Some 1, Layout.TBase Layout.BInt); (Some 2, Layout.TBase Layout.BChar)].
Theorem ds5_layout : forall W, W = 4 \/ W = 8 ->
  Layout.member_offset W lnode 1 = Some 0 /\ Layout.member_offset W lnode 2 = Some 1 /\ Layout.type_width W lnode = Some (2 * W) /\
  Layout.member_offset W lwrd 1 = Some 0 /\ Layout.member_offset W lwrd 2 = Some 0 /\ Layout.type_width W lwrd = Some 4.
Proof. intros W [-> | ->]; vm_compute; repeat split. Qed.

Section X.
Variables (W : Z) (funs : cdecls) (gv : list (Z * (Z * ty))).
Notation ty_ E e := (ctype W funs (tys (vars E)) e).
Lemma l_var n E x a t s (Q : Z -> cst -> Prop) : lookupZ (vars E) x = Some (a, t) -> Q a s -> cl W funs gv (S n) E (EVar x) s Q.
Proof. intros H1 H2. rewrite cl_eq. cbv beta iota delta [cl_body]. rewrite H1. exact H2. Qed.
Lemma l_elem n E x k a t c s (Q : Z -> cst -> Prop) : lookupZ (vars E) x = Some (a, TArr t c) -> 0 <= k < 2 ^ 31 ->
  bval W Add (TArr t c) tint a k = Some (a + k * csize W t) -> Q (a + k * csize W t) s -> cl W funs gv (S (S (S n))) E (EIdx (EVar x) (ELit k)) s Q.
Proof.
  intros H1 H2 H3 H4. rewrite cl_eq. cbv beta iota delta [cl_body]. cbn [ctype]. rewrite (lookup_tys _ _ _ _ H1).
  rewrite ce_eq. cbv beta iota zeta delta [ce_body]. cbn [ctype]. rewrite (lookup_tys _ _ _ _ H1). eapply l_var; [exact H1|]. cbn [reads].
  rewrite ce_eq. cbv beta iota zeta delta [ce_body]. split; [exact H2|]. rewrite H3. exact H4.
Qed.
Lemma l_dot n E e m t s (Q : Z -> cst -> Prop) : ty_ E e = Some t -> cl W funs gv n E e s (fun a s => oq (member_addr W funs t m a) Q s) -> cl W funs gv (S n) E (EDot e m) s Q.
Proof. intros H1 H2. rewrite cl_eq. cbv beta iota delta [cl_body]. rewrite H1. exact H2. Qed.
Lemma l_arrow n E e m t s (Q : Z -> cst -> Prop) : ty_ E e = Some (TPtr t) -> ce W funs gv n E e s (fun a s => oq (member_addr W funs t m a) Q s) -> cl W funs gv (S n) E (EArrow e m) s Q.
Proof. intros H1 H2. rewrite cl_eq. cbv beta iota delta [cl_body]. rewrite H1. exact H2. Qed.
Lemma x_dot n E e m t s (Q : Z -> cst -> Prop) : ty_ E (EDot e m) = Some t -> cl W funs gv n E (EDot e m) s (fun a s => reads W E t a s Q) -> ce W funs gv (S n) E (EDot e m) s Q.
Proof. intros H1 H2. rewrite ce_eq. cbv beta iota zeta delta [ce_body]. rewrite H1. exact H2. Qed.
Lemma x_addr n E e s (Q : Z -> cst -> Prop) : cl W funs gv n E e s Q -> ce W funs gv (S n) E (EAddr e) s Q.
Proof. intros H2. rewrite ce_eq. exact H2. Qed.
Lemma x_asgn n E a b t s (Q : Z -> cst -> Prop) : ty_ E a = Some t -> is_struct t = false ->
  cl W funs gv n E a s (fun p s => ce W funs gv n E b s (fun v s => writes W E t p v s (fun s => Q (conv W t v) s))) -> ce W funs gv (S n) E (EAsg a b) s Q.
Proof. intros H1 Hs H2. rewrite ce_eq. cbv beta iota zeta delta [ce_body]. rewrite H1. destruct t; try discriminate Hs; exact H2. Qed.
Lemma x_asgs n E a b u i k s (Q : Z -> cst -> Prop) : ty_ E a = Some (TStruct u i k) -> ty_ E b = Some (TStruct u i k) ->
  cl W funs gv n E a s (fun p s => cl W funs gv n E b s (fun q s => copies W E p q k s (fun s => Q 0 s))) -> ce W funs gv (S n) E (EAsg a b) s Q.
Proof. intros H1 Hs H2. rewrite ce_eq. cbv beta iota zeta delta [ce_body]. rewrite H1, Hs. split; [reflexivity|exact H2]. Qed.
Lemma x_call1 n E f a s (Q : Z -> cst -> Prop) : ce W funs gv (S n) E a s (fun v s => ccall W funs gv (S (S n)) (live E) f [v] s Q) -> ce W funs gv (S (S (S n))) E (ECall f (ACons a ANil)) s Q.
Proof. intros H. rewrite ce_eq. cbv beta iota delta [ce_body]. rewrite cargs_eq. cbv beta iota delta [cargs_body]. rewrite cargs_eq. cbv beta iota delta [cargs_body]. exact H. Qed.
Lemma x_putc n L v s (Q : Z -> cst -> Prop) : funs id_putchar = Some FPutchar -> Q (v mod 256) (CS (cmem s) (cout s ++ [v mod 256]) (cin s)) -> ccall W funs gv (S n) L id_putchar [v] s Q.
Proof. intros H1 H2. rewrite ccall_eq. cbv beta iota delta [ccall_body]. rewrite H1. exact H2. Qed.
End X.
Lemma node_ptr W m a v : W = 4 \/ W = 8 -> 0 <= v < MOD W -> loadv W (TPtr (node W)) (storev W (TPtr (node W)) m a v) a = v.
Proof.
  intros HW H. unfold loadv, storev. cbn [csize]. rewrite rd_wrb. assert (256 ^ Z.of_nat (Z.to_nat W) = MOD W) by (destruct HW as [-> | ->]; reflexivity). rewrite Z.mod_small; lia.
Qed.
Lemma ld_char m m' a : (m' a = m a) -> forall W, loadv W chr m' a = loadv W chr m a.
Proof. intros H W. unfold chr. apply load_ext; [lia|]. intros x Hx. replace x with a by lia. exact H. Qed.
Lemma st_out W t m a v x : 0 <= csize W t -> ~ (a <= x < a + csize W t) -> storev W t m a v x = m x.
Proof. intros H1 H2. unfold storev. apply wrb_out. lia. Qed.

(** C: it prints "ABCB" and ends with status 0, whatever its arguments and input, wherever the objects are placed. *)
Theorem ds5_c : forall W, W = 4 \/ W = 8 -> forall La m0 argc argv inp, cprog W (ds5 W) 100 La m0 argc argv inp (fun c st => c = 0 /\ cout st = [65; 66; 67; 66]).
Proof.
  intros W HW La m0 argc argv inp. assert (P8 : 0 < W) by (destruct HW; lia).
  unfold cprog. cbn [globals ds5]. intros a Fa u Fu m Hm1 Hm2 Hm3. cbn [inits].
  change (csize W (TArr (node W) 2)) with (2 * (2 * W)) in *. change (csize W wrd) with 4 in *.
  set (L := (u, 4) :: (a, 2 * (2 * W)) :: La) in *. set (V := [(21, (u, wrd)); (20, (a, TArr (node W) 2))]).
  match goal with |- inits _ _ _ _ _ _ ?s ?K => change (K s) end; cbv beta.
  match goal with |- match ?f with _ => _ end => let v := eval cbv [fun_def ds5 id_main Z.eqb Pos.eqb] in f in change f with v end; cbv beta iota; cbn [List.length firstn]; split; [lia|]; cbn [bindp].
  destruct Fa as (A1 & A2 & A3). destruct Fu as (U1 & U2 & U3).
  assert (UA : forall x, a <= x < a + 2 * (2 * W) -> ~ (u <= x < u + 4)). { intros x Hx H. apply (U3 x H). exists (a, 2 * (2 * W)). cbn [fst snd]. split; [now left|lia]. }
  assert (Ba : forall o k, 0 <= o -> o + k <= 2 * (2 * W) -> inblock L (a + o) k). { intros o k H1 H2. exists (a, 2 * (2 * W)). cbn [fst snd]. split; [right; now left|lia]. }
  assert (Bu : forall k, k <= 4 -> inblock L u k). { intros k H2. exists (u, 4). cbn [fst snd]. split; [now left|lia]. }
  assert (La0 : lookupZ V 20 = Some (a, TArr (node W) 2)) by reflexivity. assert (Lu : lookupZ V 21 = Some (u, wrd)) by reflexivity.
  set (F := cfuns (ds5 W)). set (E := Env V L).
  assert (T0 : forall k, ctype W F (tys (vars E)) (a_ k) = Some (node W)) by reflexivity.
  assert (T1 : forall k, ctype W F (tys (vars E)) (EDot (a_ k) 1) = Some chr) by reflexivity.
  assert (T2 : forall k, ctype W F (tys (vars E)) (EDot (a_ k) 2) = Some (TPtr (node W))) by reflexivity.
  assert (M0 : forall p, 0 <= p < MOD W -> member_addr W F (node W) 1 p = Some p).
  { intros p Hp. unfold member_addr, node. change (dmem F 40 1) with (Some (0, chr)). cbv beta iota zeta. rewrite Z.add_0_r. rewrite (proj2 (Z.leb_le 0 p)), (proj2 (Z.ltb_lt p (MOD W))) by lia. reflexivity. }
  assert (M1 : forall p, 0 <= p + 1 < MOD W -> member_addr W F (node W) 2 p = Some (p + 1)).
  { intros p Hp. unfold member_addr, node. change (dmem F 40 2) with (Some (1, TPtr (TStruct false 40 (2 * W)))). cbv beta iota zeta. rewrite (proj2 (Z.leb_le 0 _)), (proj2 (Z.ltb_lt _ (MOD W))) by lia. reflexivity. }
  assert (M2 : forall k, k = 1 \/ k = 2 -> member_addr W F wrd k u = Some u).
  { intros k Hk. unfold member_addr, wrd. assert (exists r, dmem F 41 k = Some r) as [[o t] ->] by (destruct Hk as [-> | ->]; eexists; reflexivity). cbv beta iota zeta. rewrite Z.add_0_r. rewrite (proj2 (Z.leb_le 0 _)), (proj2 (Z.ltb_lt _ (MOD W))) by lia. reflexivity. }
  assert (EL : forall n k s (Q : Z -> cst -> Prop), k = 0 \/ k = 1 -> Q (a + k * (2 * W)) s -> cl W F V (S (S (S n))) E (a_ k) s Q).
  { intros n k s Q Hk HQ. eapply l_elem; [exact La0|lia| |exact HQ]. unfold bval. cbn [decay tint]. change (csize W (node W)) with (2 * W). cbv beta iota zeta.
    rewrite (proj2 (Z.leb_le 0 _)), (proj2 (Z.ltb_lt _ (MOD W))) by (destruct Hk; nia). reflexivity. }
  assert (E1 : forall n k s (Q : Z -> cst -> Prop), k = 0 \/ k = 1 -> Q (a + k * (2 * W)) s -> cl W F V (S (S (S (S n)))) E (EDot (a_ k) 1) s Q).
  { intros n k s Q Hk HQ. eapply l_dot; [apply T0|]. apply EL; [exact Hk|]. rewrite M0 by (destruct Hk; nia). exact HQ. }
  assert (E2 : forall n s (Q : Z -> cst -> Prop), Q (a + 1) s -> cl W F V (S (S (S (S n)))) E (EDot (a_ 0) 2) s Q).
  { intros n s Q HQ. eapply l_dot; [apply T0|]. apply EL; [auto|]. rewrite M1 by lia. replace (a + 0 * (2 * W) + 1) with (a + 1) by lia. exact HQ. }
  change 100%nat with (S (S (S (S (S (S (S (S (S (S (S (S (S (S (S (S (S (S (S (S 80)))))))))))))))))))). cbn [seq put].
  (* a[0].c = 65 *)
  apply x_item, x_expr. eapply x_asgn; [apply T1|reflexivity|]. apply E1; [auto|]. apply x_lit; [lia|]. replace (a + 0 * (2 * W)) with a by lia.
  split; [reflexivity|]. split; [replace a with (a + 0) by lia; apply Ba; cbn [csize chr]; lia|]. cbn [setmem cmem cout cin]. set (m1 := storev W chr m a 65).
  (* a[0].next = &a[1] *)
  apply x_item, x_expr. eapply x_asgn; [apply T2|reflexivity|]. apply E2. apply x_addr. apply EL; [auto|].
  split; [reflexivity|]. split; [apply Ba; cbn [csize]; lia|]. cbn [setmem cmem cout cin]. replace (a + 1 * (2 * W)) with (a + 2 * W) by lia. set (m2 := storev W (TPtr (node W)) m1 (a + 1) (a + 2 * W)).
  (* a[0].next->c = 66 *)
  apply x_item, x_expr. eapply x_asgn; [reflexivity|reflexivity|]. eapply l_arrow; [reflexivity|]. eapply x_dot; [apply T2|]. apply E2. split; [apply Ba; cbn [csize]; lia|]. cbn [cmem setmem cout cin].
  unfold m2 at 1. rewrite node_ptr by (auto; lia). fold m2. rewrite M0 by lia. apply x_lit; [lia|].
  split; [reflexivity|]. split; [apply Ba; cbn [csize chr]; lia|]. cbn [setmem cmem cout cin]. set (m3 := storev W chr m2 (a + 2 * W) 66).
  (* u.i = 323 *)
  apply x_item, x_expr. eapply x_asgn; [reflexivity|reflexivity|]. eapply l_dot; [reflexivity|]. eapply l_var; [exact Lu|]. rewrite M2 by auto. apply x_lit; [lia|].
  split; [reflexivity|]. split; [apply Bu; cbn [csize tint]; lia|]. cbn [setmem cmem cout cin]. set (m4 := storev W tint m3 u 323).
  assert (V0 : loadv W chr m4 a = 65).
  { rewrite (ld_char m1). unfold m1, chr. rewrite load_same by (cbn; tauto). reflexivity.
    unfold m4. rewrite st_out by (change (csize W tint) with 4; first [lia|apply UA; lia]). unfold m3. rewrite st_out by (cbn [csize chr]; lia). unfold m2. rewrite st_out by (cbn [csize]; lia). reflexivity. }
  assert (V1 : loadv W chr m4 (a + 2 * W) = 66).
  { rewrite (ld_char m3). unfold m3, chr. rewrite load_same by (cbn; tauto). reflexivity.
    unfold m4. rewrite st_out by (change (csize W tint) with 4; first [lia|apply UA; lia]). reflexivity. }
  assert (V2 : loadv W chr m4 u = 67).
  { unfold m4, chr, tint, loadv, storev. cbn [csize]. change (Z.to_nat 4) with (1 + 3)%nat. change (Z.to_nat 1) with 1%nat. cbn [wrb rd Nat.add].
    unfold upd. rewrite Z.eqb_refl. rewrite !(proj2 (Z.eqb_neq _ _)) by lia. reflexivity. }
  (* putchar *)
  apply x_item, x_expr, x_call1. eapply x_dot; [apply T1|]. apply E1; [auto|]. replace (a + 0 * (2 * W)) with a by lia. split; [replace a with (a + 0) by lia; apply Ba; cbn [csize chr]; lia|]. cbn [cmem setmem cout cin]. rewrite V0.
  apply x_putc; [reflexivity|]. cbn [cmem cout cin app].
  apply x_item, x_expr, x_call1. eapply x_dot; [apply T1|]. apply E1; [auto|]. replace (a + 1 * (2 * W)) with (a + 2 * W) by lia. split; [apply Ba; cbn [csize chr]; lia|]. cbn [cmem setmem cout cin]. rewrite V1.
  apply x_putc; [reflexivity|]. cbn [cmem cout cin app].
  apply x_item, x_expr, x_call1. eapply x_dot; [reflexivity|]. eapply l_dot; [reflexivity|]. eapply l_var; [exact Lu|]. rewrite M2 by auto. split; [apply Bu; cbn [csize chr]; lia|]. cbn [cmem setmem cout cin]. rewrite V2.
  apply x_putc; [reflexivity|]. cbn [cmem cout cin app].
  (* a[0] = a[1] *)
  apply x_item, x_expr. eapply x_asgs; [apply T0|apply T0|]. apply EL; [auto|]. apply EL; [auto|].
  replace (a + 0 * (2 * W)) with a by lia. replace (a + 1 * (2 * W)) with (a + 2 * W) by lia.
  split; [replace a with (a + 0) by lia; apply Ba; lia|]. split; [apply Ba; lia|]. split; [lia|]. split; [lia|]. split; [lia|]. cbn [setmem cmem cout cin].
  set (m5 := copyv m4 a (a + 2 * W) (2 * W)).
  assert (V3 : loadv W chr m5 a = 66).
  { rewrite <- V1. unfold loadv. cbn [csize chr]. change (Z.to_nat 1) with 1%nat. cbn [rd]. unfold m5, copyv. rewrite (proj2 (Z.leb_le _ _)), (proj2 (Z.ltb_lt _ _)) by lia. cbn [andb].
    replace (a - a + (a + 2 * W)) with (a + 2 * W) by lia. reflexivity. }
  apply x_item, x_expr, x_call1. eapply x_dot; [apply T1|]. apply E1; [auto|]. replace (a + 0 * (2 * W)) with a by lia. split; [replace a with (a + 0) by lia; apply Ba; cbn [csize chr]; lia|]. cbn [cmem setmem cout cin]. rewrite V3.
  apply x_putc; [reflexivity|]. cbn [cmem cout cin app].
  apply x_item, x_ret, x_lit; [lia|]. split; reflexivity.
Qed.

(** ** Compiled, for both word sizes *)
Definition cg5 (W : Z) : list hop * gst := match codegen_prog W (ds5 W) with Some p => p | None => ([], GS [] 0 0 [] false 0) end.
Definition by5 (W : Z) : list Z := assemble W (hops W (fst (cg5 W))).
Theorem ds5_compiled : forall W, W = 4 \/ W = 8 -> compiled W (ds5 W) (fst (cg5 W)) (snd (cg5 W)) (by5 W).
Proof.
  intros W HW. constructor; [exact HW| | | | | |reflexivity].
  all: destruct HW as [-> | ->].
  all: match goal with |- _ = true => vm_compute; reflexivity | |- _ <= _ => apply Z.leb_le; vm_compute; reflexivity | _ => unfold cg5; vm_compute; reflexivity end.
Qed.
(** A process image as in PropNative4. *)
Definition start5 (W : Z) : mst := MS (upd (fun _ => 0) 4 2147418112) (image (by5 W)) 4198400 None [] [] [268435456; 536870912].
Lemma at_nth (l : list Z) c p : (forall i, 0 <= i < zlen l -> c (p + i) = nth (Z.to_nat i) l 0) -> at_ c p l.
Proof.
  revert c p. induction l as [|b l IH]; intros c p H; cbn [at_]; [exact I|]. rewrite zlen_cons in H. pose proof (zlen_nonneg l). split.
  - specialize (H 0 ltac:(lia)). rewrite Z.add_0_r in H. exact H.
  - apply IH. intros i Hi. replace (p + 1 + i) with (p + (i + 1)) by lia. rewrite H by lia. replace (Z.to_nat (i + 1)) with (S (Z.to_nat i)) by lia. reflexivity.
Qed.
Theorem ds5_started : forall W, W = 4 \/ W = 8 -> started W (by5 W) (galloc (snd (cg5 W))) 4198400 1879048192 2147418112 268435456 536870912 [] 1 [] (start5 W).
Proof.
  intros W HW.
  assert (A : galloc (snd (cg5 W)) <= 100) by (destruct HW as [-> | ->]; apply Z.leb_le; vm_compute; reflexivity).
  assert (A0 : 0 <= galloc (snd (cg5 W))) by (destruct HW as [-> | ->]; apply Z.leb_le; vm_compute; reflexivity).
  assert (B : zlen (by5 W) <= 10000) by (destruct HW as [-> | ->]; apply Z.leb_le; vm_compute; reflexivity).
  assert (D : forallb (fun b => (0 <=? b) && (b <? 256)) (by5 W) = true) by (destruct HW as [-> | ->]; vm_compute; reflexivity).
  assert (M : 2 ^ 32 <= MOD W) by (destruct HW as [-> | ->]; apply Z.leb_le; vm_compute; reflexivity).
  assert (W = 4 \/ W = 8) by exact HW. pose proof (zlen_nonneg (by5 W)).
  constructor; cbn [start5 rg mm pc outp X86Sem.inp maps].
  - constructor; unfold RT_HEAP_SIZE; try lia. intros x (b & [] & _).
  - intros q. unfold upd. destruct (q =? 4); lia.
  - intros a. unfold image. destruct ((4198400 <=? a) && (a <? 4198400 + zlen (by5 W))) eqn:E; [|destruct (a =? 2147418112); lia].
    rewrite forallb_forall in D. apply andb_true_iff in E as [E1 E2]. rewrite Z.leb_le in E1. rewrite Z.ltb_lt in E2.
    assert (X : In (nth (Z.to_nat (a - 4198400)) (by5 W) 0) (by5 W)). { apply nth_In. unfold zlen in E2. lia. }
    apply D in X. apply andb_true_iff in X as [X1 X2]. lia.
  - apply at_nth. intros i Hi. unfold image. rewrite (proj2 (Z.leb_le 4198400 (4198400 + i))), (proj2 (Z.ltb_lt (4198400 + i) (4198400 + zlen (by5 W)))) by lia. cbv beta iota delta [andb]. replace (4198400 + i - 4198400) with i by lia. reflexivity.
  - reflexivity.
  - reflexivity.
  - assert (E : forall x, 2147418112 <= x < 2147418112 + 8 -> image (by5 W) x = if x =? 2147418112 then 1 else 0). { intros x Hx. unfold image. rewrite (proj2 (Z.ltb_ge x (4198400 + zlen (by5 W)))) by lia. rewrite andb_false_r. reflexivity. }
    rewrite (rd_ext (Wn W) (fun x => if x =? 2147418112 then 1 else 0) (image (by5 W))). 
    + destruct HW as [-> | ->]; vm_compute; reflexivity.
    + intros x Hx. apply E. assert (Z.of_nat (Wn W) <= 8) by (destruct HW as [-> | ->]; vm_compute; discriminate). lia.
  - reflexivity.
  - reflexivity.
  - reflexivity.
Qed.
(** So the machine prints "ABCB" and exits with status 0, or the stack is exhausted ... *)
Theorem ds5_runs : forall W, W = 4 \/ W = 8 -> exists k, run W 1879048192 k (start5 W) = Over \/ exists c s', run W 1879048192 k (start5 W) = Exit c s' /\ c = 0 /\ outp s' = [65; 66; 67; 66].
Proof.
  intros W HW. eapply (c48_native_program_partial W (ds5 W) _ _ _ (ds5_compiled W HW)) with (Q := fun c o => c = 0 /\ o = [65; 66; 67; 66]); [|exact (ds5_started W HW)|].
  - destruct HW as [-> | ->]; apply Z.ltb_lt; vm_compute; reflexivity.
  - apply ds5_c, HW.
Qed.
(** ... and it is not. *)
Theorem ds5_exec : forall W, W = 4 \/ W = 8 -> exists k, exec W (ds5 W) k = Some (0, [65; 66; 67; 66]).
Proof. intros W [-> | ->]; exists 600%nat; vm_compute; reflexivity. Qed.
