(** * Where native programs do not behave as C says: whole programs, compiled and run on the machine *)
From Coq Require Import ZArith List Lia Bool.
From Verif Require Import Base Asm AsmProof X86 X86Proof X86Sem NMach NPtr CLang CProg NGen NSupp NEqs NProg NWhole NWhole3 PropNative.
Import ListNotations.
Open Scope Z_scope.

(** Compile, place the code at 0x401000, run at most [k] steps. *)
Definition image (bytes : list Z) (a : Z) : Z :=
  if (4198400 <=? a) && (a <? 4198400 + zlen bytes) then nth (Z.to_nat (a - 4198400)) bytes 0 else if a =? 2147418112 then 1 else 0.
Definition exec (W : Z) (ds : list gdecl) (k : nat) : option (Z * list Z) :=
  match codegen_prog W ds with
  | Some (code, _) =>
      let bytes := assemble W (hops W code) in
      match run W 1879048192 k (MS (upd (fun _ => 0) 4 2147418112) (image bytes) 4198400 None [] [] [268435456; 536870912]) with Exit c s => Some (c, outp s) | _ => None end
  | None => None
  end.
Definition main_ (l : items) : gdecl := DFun id_main [] tint l.
Definition uint := TInt 4 false. Definition char := TInt 1 true. Definition uchar := TInt 1 false.
Notation "'ret' e" := (IStmt (SReturn (Some e)) INil) (at level 9, e at level 9).
(** return 3 && 2; *)
Definition r_and := [main_ (ret (EAnd (ELit 3) (ELit 2)))].
(** char c; return (c = 300) == 300; *)
Definition r_asg := [main_ (IDecl 20 char None (ret (EBin Eq (EPar (EAsg (EVar 20) (ELit 300))) (ELit 300))))].
(** int a = 200; char c = 100; return (char)(a + c) == 300; *)
Definition r_cast := [main_ (IDecl 20 tint (Some (ELit 200)) (IDecl 21 char (Some (ELit 100)) (ret (EBin Eq (ECast char (EPar (EBin Add (EVar 20) (EVar 21)))) (ELit 300)))))].
(** unsigned a = 1; return (a + (-2)) > 0; *)
Definition r_type := [main_ (IDecl 20 uint (Some (ELit 1)) (ret (EBin Gt (EPar (EBin Add (EVar 20) (EPar (ENeg (ELit 2))))) (ELit 0))))].
(** char f() { return 300; } int main() { return f() == 300; } *)
Definition r_fret := [DFun 21 [] char (ret (ELit 300)); main_ (ret (EBin Eq (ECall 21 ANil) (ELit 300)))].
(** int i = 0; do { i = i + 1; if (i == 1) continue; else ; } while (0); return i; *)
Definition r_do := [main_ (IDecl 20 tint (Some (ELit 0)) (IStmt (SDo (SBlock (IStmt (SExpr (EAsg (EVar 20) (EBin Add (EVar 20) (ELit 1))))
   (IStmt (SIf (EBin Eq (EVar 20) (ELit 1)) SContinue SSkip) INil))) (ELit 0)) (ret (EVar 20))))].
(** int x = 7; int f(int x) { return x; }  int *p = &x; int main() { return *p; } *)
Definition r_shadow := [DVar 20 tint (Some (ELit 7)); DFun 21 [(20, tint)] tint (ret (EVar 20)); DVar 22 (TPtr tint) (Some (EAddr (EVar 20))); main_ (ret (EDeref (EVar 22)))].
(** unsigned a = 2147483647; return (a + a + 2) == 0; *)
Definition r_wrap := [main_ (IDecl 20 uint (Some (ELit 2147483647)) (ret (EBin Eq (EPar (EBin Add (EBin Add (EVar 20) (EVar 20)) (ELit 2))) (ELit 0))))].
(** int a = -8; unsigned n = 1; return (a >> n) == -4; *)
Definition r_shr := [main_ (IDecl 20 tint (Some (ENeg (ELit 8))) (IDecl 21 uint (Some (ELit 1)) (ret (EBin Eq (EPar (EBin Shr (EVar 20) (EVar 21))) (ENeg (ELit 4))))))].
(** unsigned char c = 1; int m = -1; return c > m; *)
Definition r_cmp := [main_ (IDecl 20 uchar (Some (ELit 1)) (IDecl 21 tint (Some (ENeg (ELit 1))) (ret (EBin Gt (EVar 20) (EVar 21)))))].
(** int main() { } *)
Definition r_fall := [main_ INil].

(** ** What C says: the status, for all arguments and inputs *)
Definition c_status (W : Z) (ds : list gdecl) (v : Z) : Prop :=
  forall La m0 argc argv inp, cprog W ds 100 La m0 argc argv inp (fun c st => c = v /\ cout st = []).

Section X.
Variables (W : Z) (funs : cdecls) (gv : list (Z * (Z * ty))).
Notation ty_ E e := (ctype W funs (tys (vars E)) e).
Lemma lookup_tys V x a (t : ty) : lookupZ V x = Some (a, t) -> lookupZ (tys V) x = Some t.
Proof. induction V as [|[y [b u]] V IH]; cbn [lookupZ tys map fst snd]; [discriminate|]. destruct (_ =? _); [intros H; inversion H; reflexivity|exact IH]. Qed.
Lemma x_lit n E z s (Q : Z -> cst -> Prop) : 0 <= z < 2 ^ 31 -> Q z s -> ce W funs gv (S n) E (ELit z) s Q.
Proof. intros H1 H2. rewrite ce_eq. split; assumption. Qed.
Lemma x_var n E x a k b s (Q : Z -> cst -> Prop) : lookupZ (vars E) x = Some (a, TInt k b) -> inblock (live E) a k -> Q (loadv W (TInt k b) (cmem s) a) s -> ce W funs gv (S (S n)) E (EVar x) s Q.
Proof.
  intros H1 H2 H3. rewrite ce_eq. cbv beta iota delta [ce_body]. cbn [ctype]. rewrite (lookup_tys _ _ _ _ H1). rewrite cl_eq. cbv beta iota delta [cl_body].
  rewrite H1. cbv beta iota delta [reads]. split; assumption.
Qed.
Lemma x_bin n E o a b t1 t2 s (Q : Z -> cst -> Prop) : ty_ E a = Some t1 -> ty_ E b = Some t2 ->
  ce W funs gv n E a s (fun x s => ce W funs gv n E b s (fun y s => oq (bval W o t1 t2 x y) Q s)) -> ce W funs gv (S n) E (EBin o a b) s Q.
Proof. intros H1 H2 H3. rewrite ce_eq. cbv beta iota zeta delta [ce_body]. rewrite H1, H2. exact H3. Qed.
Lemma x_par n E e s (Q : Z -> cst -> Prop) : ce W funs gv n E e s Q -> ce W funs gv (S n) E (EPar e) s Q.
Proof. intros H. rewrite ce_eq. exact H. Qed.
Lemma x_neg n E e k b s (Q : Z -> cst -> Prop) : ty_ E e = Some (TInt k b) -> ce W funs gv n E e s (fun v s => oq (fit W (promote (TInt k b)) (- v)) Q s) -> ce W funs gv (S n) E (ENeg e) s Q.
Proof. intros H H1. rewrite ce_eq. cbv beta iota zeta delta [ce_body]. rewrite H. exact H1. Qed.
Lemma x_cast n E e t0 t s (Q : Z -> cst -> Prop) : ty_ E e = Some t0 -> ce W funs gv n E e s (fun v s => Q (conv W t v) s) -> ce W funs gv (S n) E (ECast t e) s Q.
Proof. intros H H1. rewrite ce_eq. cbv beta iota zeta delta [ce_body]. rewrite H. exact H1. Qed.
Lemma x_and n E a b s (Q : Z -> cst -> Prop) : ce W funs gv n E a s (fun x s => if x =? 0 then Q 0 s else ce W funs gv n E b s (fun y s => Q (b2i (negb (y =? 0))) s)) -> ce W funs gv (S n) E (EAnd a b) s Q.
Proof. intros H. rewrite ce_eq. exact H. Qed.
Lemma x_call0 n E f s (Q : Z -> cst -> Prop) : ccall W funs gv (S n) (live E) f [] s Q -> ce W funs gv (S (S n)) E (ECall f ANil) s Q.
Proof. intros H. rewrite ce_eq. cbv beta iota delta [ce_body]. rewrite cargs_eq. cbv beta iota delta [cargs_body]. exact H. Qed.
Lemma x_fun0 n L f t b s (Q : Z -> cst -> Prop) : funs f = Some (FUser [] t b) ->
  ci W funs gv n (Env gv L) b s (fun o s => match o with OReturn v => Q (conv W t v) s | ONormal => t = TVoid /\ Q 0 s | _ => False end) -> ccall W funs gv (S n) L f [] s Q.
Proof. intros H1 H2. rewrite ccall_eq. cbv beta iota delta [ccall_body]. rewrite H1. cbn [bindp]. destruct s. exact H2. Qed.
Lemma x_asg n E x a k b e s (Q : Z -> cst -> Prop) : lookupZ (vars E) x = Some (a, TInt k b) ->
  ce W funs gv (S n) E e s (fun v s => writes W E (TInt k b) a v s (fun s => Q (conv W (TInt k b) v) s)) -> ce W funs gv (S (S n)) E (EAsg (EVar x) e) s Q.
Proof.
  intros H1 H3. rewrite ce_eq. cbv beta iota zeta delta [ce_body]. cbn [ctype]. rewrite (lookup_tys _ _ _ _ H1). rewrite cl_eq. cbv beta iota delta [cl_body]. rewrite H1. exact H3.
Qed.
Lemma x_ret n E e s (Q : out -> cst -> Prop) : ce W funs gv n E e s (fun v s => Q (OReturn v) s) -> cs W funs gv (S n) E (SReturn (Some e)) s Q.
Proof. intros H. rewrite cs_eq. exact H. Qed.
Lemma x_if n E e c1 c2 s (Q : out -> cst -> Prop) : ce W funs gv n E e s (fun v s => cs W funs gv n E (if v =? 0 then c2 else c1) s Q) -> cs W funs gv (S n) E (SIf e c1 c2) s Q.
Proof. intros H. rewrite cs_eq. exact H. Qed.
Lemma x_skip n E s (Q : out -> cst -> Prop) : Q ONormal s -> cs W funs gv (S n) E SSkip s Q.
Proof. intros H. rewrite cs_eq. exact H. Qed.
Lemma x_cont n E s (Q : out -> cst -> Prop) : Q OContinue s -> cs W funs gv (S n) E SContinue s Q.
Proof. intros H. rewrite cs_eq. exact H. Qed.
Lemma x_block n E l s (Q : out -> cst -> Prop) : ci W funs gv n E l s Q -> cs W funs gv (S n) E (SBlock l) s Q.
Proof. intros H. rewrite cs_eq. exact H. Qed.
Lemma x_expr n E e s (Q : out -> cst -> Prop) : ce W funs gv n E e s (fun _ s => Q ONormal s) -> cs W funs gv (S n) E (SExpr e) s Q.
Proof. intros H. rewrite cs_eq. exact H. Qed.
Lemma x_do n E e b s (Q : out -> cst -> Prop) : 
  cs W funs gv n E b s (fun o s => match o with ONormal | OContinue => ce W funs gv n E e s (fun v s => if v =? 0 then Q ONormal s else cs W funs gv n E (SDo b e) s Q) | OBreak => Q ONormal s | OReturn v => Q (OReturn v) s end) ->
  cs W funs gv (S n) E (SDo b e) s Q.
Proof. intros H. rewrite cs_eq. exact H. Qed.
Lemma x_item n E c l s (Q : out -> cst -> Prop) : cs W funs gv n E c s (fun o s => match o with ONormal => ci W funs gv n E l s Q | _ => Q o s end) -> ci W funs gv (S n) E (IStmt c l) s Q.
Proof. intros H. rewrite ci_eq. exact H. Qed.
Lemma x_nil n E s (Q : out -> cst -> Prop) : Q ONormal s -> ci W funs gv (S n) E INil s Q.
Proof. intros H. rewrite ci_eq. exact H. Qed.
End X.
Lemma load_same W n b m a v : In n [1; 2; 4] -> loadv W (TInt n b) (storev W (TInt n b) m a v) a = conv W (TInt n b) v.
Proof.
  intros H. cbn [loadv storev csize conv]. unfold storev. cbn [csize]. assert (P : forall n0, rd (Z.to_nat n0) (wrb (Z.to_nat n0) m a v) a = v mod 256 ^ Z.of_nat (Z.to_nat n0)) by (intros; apply rd_wrb).
  rewrite P. assert (E : 256 ^ Z.of_nat (Z.to_nat n) = 2 ^ (8 * n)) by (destruct H as [<-|[<-|[<-|[]]]]; reflexivity). rewrite E. destruct b; [|reflexivity]. unfold sgnn. reflexivity.
Qed.
Lemma load_ext W n b m m' a : 0 <= n -> (forall x, a <= x < a + n -> m' x = m x) -> loadv W (TInt n b) m' a = loadv W (TInt n b) m a.
Proof. intros Hn H. assert (E : rd (Z.to_nat n) m' a = rd (Z.to_nat n) m a) by (apply rd_ext; intros x Hx; apply H; lia). cbn [loadv csize]. rewrite E. reflexivity. Qed.
Ltac blk := match goal with |- inblock _ ?a ?n => exists (a, n); cbn [fst snd live]; split; [cbn; tauto|lia] end.
Ltac pcst p := match p with xH => idtac | xO ?p => pcst p | xI ?p => pcst p end.
Ltac zcst z := match z with Z0 => idtac | Zpos ?p => pcst p | Zneg ?p => pcst p end.
Ltac cv := repeat match goal with
  | |- context [- Zpos ?p] => pcst p; change (- Zpos p) with (Zneg p)
  | |- context [bval ?W ?o ?a ?b ?x ?y] => zcst x; zcst y; let v := eval vm_compute in (bval W o a b x y) in change (bval W o a b x y) with v
  | |- context [fit ?W ?t ?x] => zcst x; let v := eval vm_compute in (fit W t x) in change (fit W t x) with v
  | |- context [conv ?W ?t ?x] => zcst x; let v := eval vm_compute in (conv W t x) in change (conv W t x) with v
  end; cbn [oq].
Ltac ev1 := match goal with
  | |- ci _ _ _ _ _ (IStmt _ _) _ _ => apply x_item
  | |- ci _ _ _ _ _ INil _ _ => apply x_nil
  | |- cs _ _ _ _ _ (SReturn _) _ _ => apply x_ret
  | |- cs _ _ _ _ _ (SIf _ _ _) _ _ => apply x_if
  | |- cs _ _ _ _ _ SSkip _ _ => apply x_skip
  | |- cs _ _ _ _ _ SContinue _ _ => apply x_cont
  | |- cs _ _ _ _ _ (SBlock _) _ _ => apply x_block
  | |- cs _ _ _ _ _ (SExpr _) _ _ => apply x_expr
  | |- cs _ _ _ _ _ (SDo _ _) _ _ => apply x_do
  | |- ce _ _ _ _ _ (ELit _) _ _ => apply x_lit; [lia|]
  | |- ce _ _ _ _ _ (EPar _) _ _ => apply x_par
  | |- ce _ _ _ _ _ (ENeg _) _ _ => eapply x_neg; [reflexivity|]
  | |- ce _ _ _ _ _ (ECast _ _) _ _ => eapply x_cast; [reflexivity|]
  | |- ce _ _ _ _ _ (EBin _ _ _) _ _ => eapply x_bin; [reflexivity|reflexivity|]
  | |- ce _ _ _ _ _ (EAnd _ _) _ _ => apply x_and
  | |- ce _ _ _ _ _ (ECall _ ANil) _ _ => apply x_call0
  | |- ce _ _ _ _ _ (EAsg (EVar _) _) _ _ => eapply x_asg; [reflexivity|]
  | |- ce _ _ _ _ _ (EVar _) _ _ => eapply x_var; [reflexivity|blk|]
  | |- writes _ _ _ _ _ _ _ => split; [reflexivity|]; split; [blk|]
  end; cv.
Ltac ev := repeat ev1.
(** The first local variable keeps its value when the second is declared and initialized. *)
Lemma keep W n b n' b' m m' v a a' L : 0 <= n -> 0 <= n' -> fresh W ((a, n) :: L) a' n' -> (forall y, ~ (a' <= y < a' + n') -> m' y = m y) ->
  loadv W (TInt n b) (storev W (TInt n' b') m' a' v) a = loadv W (TInt n b) m a.
Proof.
  intros H0 H1 (_ & _ & F) A. apply load_ext; [exact H0|]. intros x Hx.
  assert (~ (a' <= x < a' + n')). { intros H. apply (F x H). exists (a, n). split; [left; reflexivity|exact Hx]. }
  unfold storev. cbn [csize]. rewrite wrb_out by lia. apply A. exact H.
Qed.
Lemma keep0 W n b n' m m' a a' L : 0 <= n -> 0 <= n' -> fresh W ((a, n) :: L) a' n' -> (forall y, ~ (a' <= y < a' + n') -> m' y = m y) ->
  loadv W (TInt n b) m' a = loadv W (TInt n b) m a.
Proof.
  intros H0 H1 (_ & _ & F) A. apply load_ext; [exact H0|]. intros x Hx. apply A. intros H. apply (F x H). exists (a, n). split; [left; reflexivity|exact Hx].
Qed.
Tactic Notation "dec" ident(a) ident(F) ident(B) ident(A) := match goal with |- ci _ _ _ (S _) _ (IDecl _ _ _ _) _ _ => rewrite ci_eq; cbv beta iota delta [ci_body]; split; [reflexivity|]; intros a F ? B A; cbv zeta; cbn [csize tint] in F, A end.
Ltac ld := cbn [cmem setmem]; repeat (rewrite load_same by (cbn; tauto)); cv.
Ltac start := unfold c_status, r_and, r_asg, r_cast, r_type, r_fret, r_do, r_shadow, r_wrap, r_shr, r_cmp, main_; intros La m0 argc argv inp; unfold cprog; cbn [globals]; intros m Hm1 Hm2 Hm3; cbn [inits];
  match goal with |- match ?f with _ => _ end => let v := eval vm_compute in f in change f with v end; cbv beta iota; cbn [List.length firstn]; split; [lia|]; cbn [bindp]; change 100%nat with (S (S (S (S (S (S (S (S 92)))))))).

Theorem c_and : forall W, W = 4 \/ W = 8 -> c_status W r_and 1.
Proof. intros W [-> | ->]; start; ev; cbn [Z.eqb negb b2i]; ev; split; reflexivity. Qed.
Theorem c_asg : forall W, W = 4 \/ W = 8 -> c_status W r_asg 0.
Proof. intros W [-> | ->]; start; dec a F B A; ev; split; reflexivity. Qed.
Theorem c_cast : forall W, W = 4 \/ W = 8 -> c_status W r_cast 0.
Proof. intros W [-> | ->]; start; dec a F B A; ev; dec b F' B' A'; ev; cbn [cmem setmem]; (erewrite keep; [|clear; discriminate|clear; discriminate|exact F'|exact A']); ld; ev; ld; ev; split; reflexivity. Qed.
Theorem c_type : forall W, W = 4 \/ W = 8 -> c_status W r_type 1.
Proof. intros W [-> | ->]; start; dec a F B A; ev; ld; ev; split; reflexivity. Qed.
Theorem c_wrap : c_status 8 r_wrap 1.
Proof. start; dec a F B A; ev; ld; ev; ld; ev; split; reflexivity. Qed.
Theorem c_shr : forall W, W = 4 \/ W = 8 -> c_status W r_shr 1.
Proof. intros W [-> | ->]; start; dec a F B A; ev; dec b F' B' A'; ev; cbn [cmem setmem]; (erewrite keep; [|clear; discriminate|clear; discriminate|exact F'|exact A']); ld; ev; ld; ev; split; reflexivity. Qed.
Theorem c_cmp : forall W, W = 4 \/ W = 8 -> c_status W r_cmp 1.
Proof. intros W [-> | ->]; start; dec a F B A; ev; dec b F' B' A'; ev; cbn [cmem setmem]; (erewrite keep; [|clear; discriminate|clear; discriminate|exact F'|exact A']); ld; ev; ld; ev; split; reflexivity. Qed.
Theorem c_do : forall W, W = 4 \/ W = 8 -> c_status W r_do 1.
Proof. intros W [-> | ->]; start; dec a F B A; ev; ld; ev; ld; ev; cbn [Z.eqb Pos.eqb]; ev; ld; cbn [Z.eqb]; ev; ld; split; reflexivity. Qed.
Theorem c_fret : forall W, W = 4 \/ W = 8 -> c_status W r_fret 0.
Proof. intros W [-> | ->]; start; ev; (eapply x_fun0; [reflexivity|]); ev; cv; split; reflexivity. Qed.
Theorem c_shadow : forall W, W = 4 \/ W = 8 -> c_status W r_shadow 7.
Proof.
  intros W HW La m0 argc argv inp. unfold cprog, r_shadow, main_. cbn [globals]. intros a Fa b Fb m Hm1 Hm2 Hm3. cbn [inits lookupZ].
  change (20 =? 22) with false. change (20 =? 20) with true. change (22 =? 22) with true. cbv beta iota.
  set (L := (b, csize W (TPtr tint)) :: (a, csize W tint) :: La) in *. set (V := [(22, (b, TPtr tint)); (20, (a, tint))]).
  assert (Ha : inblock L a 4). { exists (a, 4). split; [right; left; reflexivity|cbn [fst snd]; lia]. }
  assert (Hb : inblock L b W). { exists (b, W). split; [left; reflexivity|cbn [fst snd]; lia]. }
  change 100%nat with (S (S (S (S (S (S (S (S 92)))))))). apply x_lit; [lia|]. split; [reflexivity|]. split; [exact Ha|].
  rewrite ce_eq. cbv beta iota delta [ce_body]. rewrite cl_eq. cbv beta iota delta [cl_body]. change (lookupZ (vars (Env V L)) 20) with (Some (a, tint)). cbv beta iota.
  split; [reflexivity|]. split; [exact Hb|].
  match goal with |- match ?f with _ => _ end => let v := eval vm_compute in f in change f with v end; cbv beta iota; cbn [List.length firstn]; split; [lia|]; cbn [bindp].
  ev1. ev1. match goal with |- ce _ ?f _ _ _ _ _ _ => assert (Ht : ctype W f (tys (vars (Env V L))) (EDeref (EVar 22)) = Some tint) by reflexivity;
    assert (Ht2 : ctype W f (tys (vars (Env V L))) (EVar 22) = Some (TPtr tint)) by reflexivity end.
  rewrite ce_eq. cbv beta iota zeta delta [ce_body]. rewrite Ht. rewrite cl_eq. cbv beta iota delta [cl_body].
  rewrite ce_eq. cbv beta iota zeta delta [ce_body]. rewrite Ht2. rewrite cl_eq. cbv beta iota delta [cl_body]. change (lookupZ (vars (Env V L)) 22) with (Some (b, TPtr tint)). cbv beta iota.
  cbn [reads tint]. split; [exact Hb|]. cbn [setmem cmem].
  assert (E : loadv W (TPtr tint) (storev W (TPtr tint) (storev W tint m a 7) b a) b = a).
  { unfold loadv, storev. cbn [csize]. rewrite rd_wrb. apply Z.mod_small. destruct Fa as (F1 & F2 & _). change (csize W tint) with 4 in F2. unfold MOD in F2. split; [lia|].
    assert (256 ^ Z.of_nat (Z.to_nat W) = 2 ^ (8 * W)) by (destruct HW as [-> | ->]; reflexivity). lia. }
  change (TInt 4 true) with tint in *. rewrite E. split; [exact Ha|]. 
  assert (E2 : loadv W tint (storev W (TPtr tint) (storev W tint m a 7) b a) a = 7).
  { rewrite (load_ext W 4 true (storev W tint m a 7)); [|lia|].
    - unfold tint. rewrite load_same by (cbn; tauto). reflexivity.
    - intros x Hx. unfold storev at 1. cbn [csize]. apply wrb_out. destruct Fb as (_ & _ & Fb). 
      assert (~ (b <= x < b + W)). { intros H. apply (Fb x H). exists (a, 4). split; [left; reflexivity|exact Hx]. }
      assert (Z.of_nat (Z.to_nat W) = W) by (destruct HW as [-> | ->]; reflexivity). lia. }
  rewrite E2. split; reflexivity.
Qed.

(** ** What the machine does *)
Ltac refute T := let W := fresh "W" in let H := fresh "H" in intros W H; split; [exact (T W H)|]; exists 400%nat; destruct H as [-> | ->]; vm_compute; reflexivity.
(** 3 && 2 is 2. *)
Theorem c34_and_refuted : forall W, W = 4 \/ W = 8 -> c_status W r_and 1 /\ exists k, exec W r_and k = Some (2, []).
Proof. refute c_and. Qed.
(** The value of an assignment to a char is not converted. *)
Theorem c34_assign_refuted : forall W, W = 4 \/ W = 8 -> c_status W r_asg 0 /\ exists k, exec W r_asg k = Some (1, []).
Proof. refute c_asg. Qed.
(** A cast to char of a sum whose right operand is a char is dropped. *)
Theorem c34_cast_refuted : forall W, W = 4 \/ W = 8 -> c_status W r_cast 0 /\ exists k, exec W r_cast k = Some (1, []).
Proof. refute c_cast. Qed.
(** unsigned + int is treated as int. *)
Theorem c34_mixed_refuted : forall W, W = 4 \/ W = 8 -> c_status W r_type 1 /\ exists k, exec W r_type k = Some (0, []).
Proof. refute c_type. Qed.
(** int >> unsigned shifts in zeros. *)
Theorem c34_shift_refuted : forall W, W = 4 \/ W = 8 -> c_status W r_shr 1 /\ exists k, exec W r_shr k = Some (0, []).
Proof. refute c_shr. Qed.
(** unsigned char > int is an unsigned comparison. *)
Theorem c34_compare_refuted : forall W, W = 4 \/ W = 8 -> c_status W r_cmp 1 /\ exists k, exec W r_cmp k = Some (0, []).
Proof. refute c_cmp. Qed.
(** On x86-64, unsigned arithmetic does not wrap at 32 bits within an expression. *)
Theorem c34_wrap_refuted : c_status 8 r_wrap 1 /\ exists k, exec 8 r_wrap k = Some (0, []).
Proof. split; [exact c_wrap|]. exists 400%nat. vm_compute. reflexivity. Qed.
(** continue in a do-while loop goes back to the body without testing. *)
Theorem c35_do_continue_refuted : forall W, W = 4 \/ W = 8 -> c_status W r_do 1 /\ exists k, exec W r_do k = Some (2, []).
Proof. refute c_do. Qed.
(** The result of a function returning char is not converted. *)
Theorem c35_return_refuted : forall W, W = 4 \/ W = 8 -> c_status W r_fret 0 /\ exists k, exec W r_fret k = Some (1, []).
Proof. refute c_fret. Qed.
(** In the initializer of a global variable, the parameters of the preceding function hide global variables. *)
Theorem c48_initializer_refuted : forall W, W = 4 \/ W = 8 -> c_status W r_shadow 7 /\ exists k, exec W r_shadow k = Some (0, []).
Proof. refute c_shadow. Qed.
(** Falling off the end of main does not give status 0 (C11 5.1.2.2.3). *)
Theorem c48_fall_off_refuted : (exists k, exec 4 r_fall k = Some (4, [])) /\ exists k, exec 8 r_fall k = Some (8, []).
Proof. split; exists 400%nat; vm_compute; reflexivity. Qed.
