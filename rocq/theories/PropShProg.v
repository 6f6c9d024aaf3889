(** * C50: whole programs compiled to shell scripts *)
From Coq Require Import ZArith List Lia Bool.
From Verif Require Import Base Numerals Output Ast Parse ShArith ShExpr ShCSem ShEqs ShFacts ShFacts2 ShSyn ShSem ShMain ShMain6 PropShArith ShStmt PropShStmt ShProg ShLock ShProg1 ShProg2 ShProg3 ShProg4 ShProg5.
From Verif Require ShCall ShCallProof ShNames PropShNames.
From Coq Require ClassicalDescription.
Import ListNotations.
Open Scope Z_scope.
Local Notation length := List.length.

(** A program, its script and a shell.  [prg] gives the functions of the program: they are of the kind
    that C50 is about ([ok_fun]), pnut generates code for each ([fcode]), and the shell reads that code
    by its grammar as [frd f], and the code of each condition as [trd t]; [loc f] are the variables in
    the endlet of function f (sh.c:762). *)
Definition script (vn mn zn : nat -> name) (prg : nat -> option fdef)
    (trd : cond -> clist) (loc : nat -> option (list nat)) (frd : nat -> list (sh cond sval pc kcmd)) : Prop :=
  (forall f d, prg f = Some d ->
     ok_fun d /\ exists code, fcode vn mn zn d = Some code /\ prog cond sval pc kcmd code (frd f)) /\
  (forall t, gclist (ctoks vn mn zn t) (trd t)) /\
  (forall f, loc f = option_map (fun d => fparams d ++ flocals d) (prg f)).

(** ** The order of expansion *)
(* where the stricter reading of C is defined, it is C *)
Section Strict.
Variables (moff zsz : nat -> Z) (lim : nat) (prg : nat -> option fdef).
Definition RE (x y : cstate) : Prop := x = y.
Notation arelE := (ShLock.arel cstate cstate RE bad RE).
Notation cval := (cval moff zsz). Notation clval := (clval moff zsz). Notation cargs := (cargs moff zsz).
Lemma cval_strict e s x : cval true e s = Some x -> cval false e s = Some x.
Proof. unfold ShProg.cval. destruct (cev _ _ e s) as [y|]; [|discriminate]. destruct (hst _ _ e s); congruence. Qed.
Lemma clval_strict e s x : clval true e s = Some x -> clval false e s = Some x.
Proof. unfold ShProg.clval. destruct (clv _ _ e s) as [y|]; [|discriminate]. destruct (hlv _ _ e s); congruence. Qed.
Lemma cargs_strict l : forall s x, cargs true l s = Some x -> cargs false l s = Some x.
Proof.
  induction l as [|e l IH]; intros s x H; [exact H|]. cbn [ShProg.cargs] in *.
  destruct (cval true e s) as [[[[v s1] Ra] Wa]|] eqn:E; [|discriminate]. rewrite (cval_strict _ _ _ E).
  destruct (cargs true l s1) as [[[[vs s2] Rb] Wb]|] eqn:E2; [|discriminate]. rewrite (IH _ _ E2). exact H.
Qed.
Lemma arelE_refl a : arelE a a.
Proof. destruct a; cbn; [|right]; eexists; split; reflexivity. Qed.
Lemma arelE_bad c b : arelE (Halt (chalt Stuck c)) b.
Proof. left. reflexivity. Qed.
Lemma arelE_then a b k1 k2 : arelE a b -> (forall c, arelE (k1 c) (k2 c)) -> arelE (cthen a k1) (cthen b k2).
Proof.
  intros H K. destruct a as [x|x]; cbn [ShLock.arel cthen] in *.
  - destruct H as [y [-> H]]. unfold RE in H. subst y. apply K.
  - destruct H as [H|[y [-> H]]]; [left; exact H|right; eauto].
Qed.
Variables (cf1 cf2 : nat -> list Z -> cstate -> ares cstate).
Hypothesis CF : forall f vs c, arelE (cf1 f vs c) (cf2 f vs c).
Lemma ccalled_strict f vs c k : arelE (ccalled cf1 f vs c k) (ccalled cf2 f vs c k).
Proof.
  unfold ccalled. pose proof (CF f vs c) as H. destruct (cf1 f vs c) as [x|x]; cbn [ShLock.arel] in H.
  - destruct H as [y [-> H]]. unfold RE in H. subst y. apply arelE_refl.
  - destruct H as [H|[y [-> H]]]; [left; exact H|right; eauto].
Qed.
Lemma chc_strict h c : arelE (chc moff zsz true cf1 h c) (chc moff zsz false cf2 h c).
Proof.
  unfold chc. destruct (cargs true (hc_a h) (cs c)) as [[[[vs s] Ra] Wa]|] eqn:E; [|apply arelE_bad].
  rewrite (cargs_strict _ _ _ E). apply ccalled_strict.
Qed.
Lemma chcs_strict l : forall c, arelE (chcs moff zsz true cf1 l c) (chcs moff zsz false cf2 l c).
Proof.
  induction l as [|h l IH]; intros c; cbn [chcs]; [apply arelE_refl|]. pose proof (chc_strict h c) as H.
  destruct (chc moff zsz true cf1 h c) as [x|x]; cbn [ShLock.arel] in H.
  - destruct H as [y [-> H]]. unfold RE in H. subst y. apply IH.
  - destruct H as [H|[y [-> H]]]; [left; exact H|right; eauto].
Qed.
Lemma cwith_strict e c k : arelE (cwith moff zsz true e c k) (cwith moff zsz false e c k).
Proof.
  unfold cwith. destruct (cval true e (cs c)) as [[[[v s] Ra] Wa]|] eqn:E; [|apply arelE_bad].
  rewrite (cval_strict _ _ _ E). apply arelE_refl.
Qed.
Lemma cact_strict a c : arelE (cact moff zsz true lim cf1 a c) (cact moff zsz false lim cf2 a c).
Proof.
  destruct a as [l e|l x e|l [x|] f a|l e|l e|l e|l f a|]; cbn [cact];
    try (apply arelE_then; [apply chcs_strict|]; intros c1); try apply cwith_strict.
  - destruct (clval true x (cs c1)) as [[[[lo s1] Ra] Wa]|] eqn:E; [|apply arelE_bad]. rewrite (clval_strict _ _ _ E).
    destruct (cargs true a s1) as [[[[vs s2] Rb] Wb]|] eqn:E2; [|apply arelE_bad]. rewrite (cargs_strict _ _ _ E2).
    destruct (race Ra Wa Rb Wb); [apply arelE_bad|]. apply ccalled_strict.
  - destruct (cargs true a (cs c1)) as [[[[vs s2] Rb] Wb]|] eqn:E2; [|apply arelE_bad]. rewrite (cargs_strict _ _ _ E2).
    apply ccalled_strict.
  - destruct (cargs true a (cs c1)) as [[[[vs s2] Rb] Wb]|] eqn:E2; [|apply arelE_bad]. rewrite (cargs_strict _ _ _ E2).
    apply ccalled_strict.
  - apply arelE_refl.
Qed.
Lemma ctst_strict t : forall c, ShLock.trel cstate cstate RE RE bad (ctst moff zsz true cf1 t c) (ctst moff zsz false cf2 t c).
Proof.
  induction t as [l e|o a IHa b IHb]; intros c; cbn [ctst].
  - pose proof (chcs_strict l c) as H. destruct (chcs moff zsz true cf1 l c) as [x|x]; cbn [ShLock.arel] in H.
    + destruct H as [y [-> H]]. unfold RE in H. subst y.
      destruct (cval true e (cs x)) as [[[[v s] Ra] Wa]|] eqn:E; [|left; reflexivity]. rewrite (cval_strict _ _ _ E).
      eexists; split; reflexivity.
    + destruct H as [H|[y [-> H]]]; [left; exact H|right; eauto].
  - specialize (IHa c). destruct (ctst moff zsz true cf1 a c) as [v x|x]; cbn [ShLock.trel] in IHa.
    + destruct IHa as [y [-> H]]. unfold RE in H. subst y. destruct (Bool.eqb v o); [apply IHb|eexists; split; reflexivity].
    + destruct IHa as [H|[y [-> H]]]; [left; exact H|right; eauto].
Qed.
Lemma cswv_strict v c : ShLock.vrel cstate cstate RE RE bad (cswv moff zsz true cf1 v c) (cswv moff zsz false cf2 v c).
Proof.
  unfold cswv. pose proof (chcs_strict (fst v) c) as H. destruct (chcs moff zsz true cf1 (fst v) c) as [x|x]; cbn [ShLock.arel] in H.
  - destruct H as [y [-> H]]. unfold RE in H. subst y.
    destruct (cval true (snd v) (cs x)) as [[[[z s] Ra] Wa]|] eqn:E; [|left; reflexivity]. rewrite (cval_strict _ _ _ E).
    eexists; split; reflexivity.
  - destruct H as [H|[y [-> H]]]; [left; exact H|right; eauto].
Qed.
End Strict.
Lemma every_all (A T V P : Type) :
  (forall c, every A T V P (fun _ => true) (fun _ => true) (fun _ => true) (fun _ => true) c = true) /\
  (forall l, everys A T V P (fun _ => true) (fun _ => true) (fun _ => true) (fun _ => true) l = true).
Proof.
  apply stmt_stmts_ind; intros; cbn [every everys]; repeat match goal with H : _ = true |- _ => progress rewrite H; clear H end;
    try reflexivity.
  - destruct i, t, e; reflexivity.
  - exact H.
  - exact H.
  - rewrite andb_true_r. exact H.
Qed.
Lemma ccall_strict moff zsz lim prg n : forall f vs c,
  ShLock.arel cstate cstate RE bad RE (ccall moff zsz true lim prg n f vs c) (ccall moff zsz false lim prg n f vs c).
Proof.
  induction n as [|m IH]; intros f vs c; cbn [ccall]; [apply arelE_refl|].
  destruct (prg f) as [d|]; [|apply arelE_bad]. destruct (Nat.eqb _ _); [|apply arelE_bad].
  pose proof (proj1 (proj2 (lockstep atom cond sval pc cstate cstate (fun _ => true) (fun _ => true) (fun _ => true) (fun _ => true) ckval
    (cact moff zsz true lim (ccall moff zsz true lim prg m)) (cact moff zsz false lim (ccall moff zsz false lim prg m))
    (ctst moff zsz true (ccall moff zsz true lim prg m)) (ctst moff zsz false (ccall moff zsz false lim prg m))
    (cswv moff zsz true (ccall moff zsz true lim prg m)) (cswv moff zsz false (ccall moff zsz false lim prg m))
    RE RE RE bad
    (fun a x y _ E => eq_ind x (fun y => ShLock.arel cstate cstate RE bad RE _ (cact _ _ _ _ _ a y)) (cact_strict moff zsz lim _ _ IH a x) y E)
    (fun a x y _ E => eq_ind x (fun y => ShLock.arel cstate cstate RE bad RE _ (cact _ _ _ _ _ a y)) (cact_strict moff zsz lim _ _ IH a x) y E)
    (fun a x y _ E => eq_ind x (fun y => ShLock.trel cstate cstate RE RE bad _ (ctst _ _ _ _ a y)) (ctst_strict moff zsz _ _ IH a x) y E)
    (fun a x y _ E => eq_ind x (fun y => ShLock.vrel cstate cstate RE RE bad _ (cswv _ _ _ _ a y)) (cswv_strict moff zsz _ _ IH a x) y E))
    (fbody d) (proj2 (every_all atom cond sval pc) (fbody d))) (S m) _ _ (eq_refl (sets (enter d vs (cs c)) c))) as K.
  destruct (cevals atom cond sval pc cstate (cact moff zsz true lim (ccall moff zsz true lim prg m)) _ _ ckval (S m) (fbody d) _) as [[x|x|x|x|x]|];
    cbn [crel] in K.
  1-4: destruct K as [y [-> K]]; unfold RE in K; subst y; apply arelE_refl.
  - destruct K as [K|[y [-> K]]]; [left; exact K|right; eauto].
  - rewrite K. apply arelE_refl.
Qed.
Lemma crun_strict moff zsz lim prg n main s : snd (crun moff zsz true lim prg n main s) <> Stuck ->
  crun moff zsz false lim prg n main s = crun moff zsz true lim prg n main s.
Proof.
  unfold crun. pose proof (ccall_strict moff zsz lim prg n main [] (CS s [] None Running)) as K. intros H.
  destruct (ccall moff zsz true lim prg n main [] _) as [x|x]; cbn [ShLock.arel] in K.
  - destruct K as [y [-> K]]. unfold RE in K. subst y. reflexivity.
  - destruct K as [K|[y [-> K]]]; [contradiction|]. unfold RE in K. subst y. reflexivity.
Qed.

(** ** The theorem *)
(* For every program of the language, every shell, every initial state of the variables and all bounds
   on nesting, rounds and output: unless the C program does something undefined (or something that the
   order of the shell's expansions can change), the script writes the same bytes as the C program and
   ends in the same way: with the same exit status, or cut at the same place. *)
Theorem c50_partial : forall N sev ro vn mn zn moff zsz, setting N sev ro vn mn zn moff zsz ->
  forall prg trd loc frd, script vn mn zn prg trd loc frd ->
  forall lim n main g,
    let s := fun l => g (nm vn l) in
    snd (crun moff zsz true lim prg n main s) <> Stuck ->
    srun sev ro vn mn zn lim trd loc frd n main g = crun moff zsz true lim prg n main s /\
    srun sev ro vn mn zn lim trd loc frd n main g = crun moff zsz false lim prg n main s.
Proof.
  intros N sev ro vn mn zn moff zsz SET prg trd loc frd (P & T & L) lim n main g s H.
  pose proof (run_sim N sev ro vn mn zn moff zsz lim SET trd prg loc frd T P L n main g H) as E.
  split; [exact E|]. rewrite E. symmetry. apply crun_strict. exact H.
Qed.
(* a program that ends: the same output and exit status *)
Corollary c50_result_partial : forall N sev ro vn mn zn moff zsz, setting N sev ro vn mn zn moff zsz ->
  forall prg trd loc frd, script vn mn zn prg trd loc frd ->
  forall lim n main g out z,
    crun moff zsz true lim prg n main (fun l => g (nm vn l)) = (out, Exited z) ->
    srun sev ro vn mn zn lim trd loc frd n main g = (out, Exited z).
Proof.
  intros N sev ro vn mn zn moff zsz SET prg trd loc frd P lim n main g out z H. rewrite <- H.
  apply (c50_partial N sev ro vn mn zn moff zsz SET prg trd loc frd P). cbv zeta. rewrite H. discriminate.
Qed.
(* a call gives back the variables of its caller *)
Theorem c50_call_partial : forall N sev ro vn mn zn moff zsz, setting N sev ro vn mn zn moff zsz ->
  forall prg trd loc frd, script vn mn zn prg trd loc frd ->
  forall lim n f vs c c1 x h, cr c = None -> co c = ho h -> (forall l, hg h (nm vn l) = cs c l) ->
    ccall moff zsz true lim prg n f vs c = Norm c1 ->
    exists h1, scall sev ro vn mn zn lim trd loc frd n f (vn x) vs h = Norm h1 /\ co c1 = ho h1 /\ hg h1 SP = hg h SP /\
      (forall l, l <> LV x -> hg h1 (nm vn l) = cs c1 l) /\ (forall v, cr c1 = Some v -> hg h1 (vn x) = v).
Proof.
  intros N sev ro vn mn zn moff zsz SET prg trd loc frd (P & T & L) lim n f vs c c1 x h H1 H2 H3 E.
  pose proof (st_names _ _ _ _ _ _ _ _ SET) as NK.
  assert (S : sim ro vn (hg h SP) (hg h) c h).
  { split; [exact H1|]. split; [|exact H2]. split; [exact H3|]. split; reflexivity. }
  pose proof (call_sim N sev ro vn mn zn moff zsz lim SET trd prg loc frd T P L n f (vn x) vs c h _ _
    (rok_nm N sev ro vn mn zn moff zsz SET (LV x) (nk_vi _ _ _ _ _ NK x)) S) as K.
  rewrite E in K. cbn [ShLock.arel] in K. destruct K as [h1 [K (A & B & C & D & F)]]. exists h1. split; [exact K|].
  split; [exact F|]. split; [exact B|]. split; [|exact D]. intros l Hl. apply A. intros X. apply Hl.
  apply (nm_inj vn mn zn moff zsz NK l (LV x)). exact X.
Qed.

(** ** Every program of the kind has a script, and the shell reads it in one way *)
Lemma script_exists vn mn zn (l : list fdef) :
  Forall (fun d => ok_fun d /\ fcode vn mn zn d <> None) l ->
  exists loc frd, script vn mn zn (nth_error l) (crd vn mn zn) loc frd.
Proof.
  intros H.
  assert (X : exists rds, length rds = length l /\ forall f d, nth_error l f = Some d ->
            ok_fun d /\ exists code rd, fcode vn mn zn d = Some code /\ nth_error rds f = Some rd /\ prog cond sval pc kcmd code rd).
  { induction H as [|d l [Hd Hc] _ (rds & El & IH)].
    - exists []. split; [reflexivity|]. intros [|f] d E; discriminate.
    - destruct (fcode vn mn zn d) as [code|] eqn:Ef; [|contradiction].
      destruct (c28_function atom cond sval pc kcmd unit (gen vn mn zn) (vgen vn mn zn) (fun _ s => Norm s) (fun _ s => TVal true s)
        (fun _ s => VVal 0 s) (fun p _ z => Z.eqb z (ckval p)) (fun s => s)
        (fun a s => runk kcmd unit (fun _ s => Norm s) (gen vn mn zn a) s)
        (fun v s => match runk kcmd unit (fun _ s => Norm s) (vgen vn mn zn v) s with Norm s1 => VVal 0 s1 | Halt s1 => VHalt s1 end)
        ckval (fun _ _ => eq_refl) (fun _ _ => eq_refl) (fun _ _ _ => eq_refl) (pre vn d) (fbody d) code (proj2 (proj2 Hd)) Ef) as (rd & Pr & _).
      exists (rd :: rds). split; [cbn [length]; congruence|]. intros [|f] d' E; cbn [nth_error] in E.
      + inversion E; subst d'. split; [exact Hd|]. exists code, rd. split; [exact Ef|]. split; [reflexivity|exact Pr].
      + apply IH. exact E. }
  destruct X as (rds & El & X). exists (fun f => option_map owned (nth_error l f)), (fun f => match nth_error rds f with Some rd => rd | None => [] end). split; [|split].
  - intros f d E. destruct (X f d E) as (Hd & code & rd & Ef & Er & Pr). split; [exact Hd|]. exists code. rewrite Er. auto.
  - intros t. apply crd_g.
  - reflexivity.
Qed.
Lemma script_unique vn mn zn prg trd loc frd trd2 loc2 frd2 :
  script vn mn zn prg trd loc frd -> script vn mn zn prg trd2 loc2 frd2 ->
  (forall t, trd t = trd2 t) /\ (forall f, loc f = loc2 f) /\ (forall f d, prg f = Some d -> frd f = frd2 f).
Proof.
  intros (P1 & T1 & L1) (P2 & T2 & L2). split; [|split].
  - intros t. rewrite (crd_only vn mn zn t _ (T1 t)), (crd_only vn mn zn t _ (T2 t)). reflexivity.
  - intros f. rewrite L1, L2. reflexivity.
  - intros f d E. destruct (P1 f d E) as (Hd & c1 & E1 & R1). destruct (P2 f d E) as (_ & c2 & E2 & R2).
    rewrite E1 in E2. inversion E2; subst c2.
    destruct (c28_function atom cond sval pc kcmd unit (gen vn mn zn) (vgen vn mn zn) (fun _ s => Norm s) (fun _ s => TVal true s)
        (fun _ s => VVal 0 s) (fun p _ z => Z.eqb z (ckval p)) (fun s => s)
        (fun a s => runk kcmd unit (fun _ s => Norm s) (gen vn mn zn a) s)
        (fun v s => match runk kcmd unit (fun _ s => Norm s) (vgen vn mn zn v) s with Norm s1 => VVal 0 s1 | Halt s1 => VHalt s1 end)
        ckval (fun _ _ => eq_refl) (fun _ _ => eq_refl) (fun _ _ _ => eq_refl) (pre vn d) (fbody d) c1 (proj2 (proj2 Hd)) E1) as (rd & _ & U & _).
    rewrite (U _ R1), (U _ R2). reflexivity.
Qed.

(** ** A shell that meets the conditions *)
Definition ro0 (n : name) : option Z :=
  match num_after [95; 95; 109] n with
  | Some v => Some v
  | None =>
      match num_after [95; 95; 122] n with
      | Some v => Some (v + 1)
      | None =>
          match find (fun c => if list_eq_dec Z.eq_dec (character_ident (Z.of_nat c)) n then named (Z.of_nat c) else false) (seq 0 128) with
          | Some c => Some (Z.of_nat c)
          | None => None
          end
      end
  end.
Lemma num_after_none a b c p d r : a <> c \/ b <> d -> num_after (a :: b :: p) (c :: d :: r) = None.
Proof.
  intros H. unfold num_after. cbn [after]. destruct (Z.eqb_spec a c); [|reflexivity]. destruct (Z.eqb_spec b d); [|reflexivity]. tauto.
Qed.
Lemma find_none (n : name) : (forall c, (c < 128)%nat -> character_ident (Z.of_nat c) <> n) ->
  find (fun c => if list_eq_dec Z.eq_dec (character_ident (Z.of_nat c)) n then named (Z.of_nat c) else false) (seq 0 128) = None.
Proof.
  intros H. destruct (find _ _) as [c|] eqn:E; [|reflexivity]. apply find_some in E as [I E]. apply in_seq in I.
  destruct (list_eq_dec _ _ _) as [X|X]; [|discriminate]. exfalso. apply (H c); [lia|exact X].
Qed.
Lemma character_last c : last (character_ident c) 0 = 95 /\ exists r, character_ident c = 95 :: 95 :: r.
Proof.
  unfold character_ident. split; [|eexists; reflexivity]. rewrite app_assoc. change [95; 95] with ([95] ++ [95]) at 2. rewrite app_assoc.
  apply last_last.
Qed.
Lemma dec_last v : last (decimal v) 0 <> 95.
Proof.
  assert (P : forall v, 0 <= v -> last (decimal v) 0 <> 95).
  { intros w Hw. destruct (decimal_ok w Hw) as [V _]. destruct (@exists_last _ (decimal w)) as (r & c & E).
    - intros X. rewrite X in V. discriminate.
    - rewrite E, last_last. intros ->. rewrite E in V. unfold numeral_value in V.
      assert (G : forall l a, value_from 10 a (l ++ [95]) = None).
      { induction l as [|x l IH]; intros a; cbn [app value_from]; [reflexivity|]. destruct (digit_of x) as [d|]; [|reflexivity].
        destruct (d <? 10); [apply IH|reflexivity]. }
      destruct (r ++ [95]) eqn:Er; [destruct r; discriminate|]. rewrite <- Er in V. rewrite G in V. discriminate. }
  destruct (Z.ltb_spec v 0); [|apply P; lia]. rewrite decimal_neg by lia. specialize (P (- v) ltac:(lia)).
  destruct (decimal (- v)) eqn:E; [|exact P]. pose proof (decimal_ok (- v) ltac:(lia)) as [V _]. rewrite E in V. discriminate.
Qed.
Lemma ro0_chr n : (forall c, (c < 128)%nat -> character_ident (Z.of_nat c) <> n) -> num_after [95; 95; 109] n = None ->
  num_after [95; 95; 122] n = None -> ro0 n = None.
Proof. intros H H1 H2. unfold ro0. rewrite H1, H2, find_none by exact H. reflexivity. Qed.
Lemma setting0 N sev : 32 <= N -> (forall t g l g1, exp N t g l g1 -> sev t g = Some (l, g1)) ->
  setting N sev ro0 vn0 mn0 zn0 moff0 zsz0.
Proof.
  intros HN HS. constructor; [exact HN|exact names0_ok|exact HS| | |].
  - intros n v C. destruct C as [c Hc|k|k].
    + pose proof (proj1 (forallb_forall _ _) all_fine c (named_range c Hc)) as F. unfold chr_fine in F. rewrite Hc in F.
      rewrite !andb_true_iff in F. destruct F as [[F1 F2] F3]. apply Z.eqb_eq in F1. unfold ro0.
      destruct (num_after [95; 118] _); [discriminate|]. destruct (num_after [95; 95; 109] _); [discriminate|].
      destruct (num_after [95; 95; 122] _); [discriminate|]. unfold chr_of in F1.
      destruct (find _ _) as [d|] eqn:E; [congruence|]. exfalso.
      apply named_range in Hc as I. apply in_map_iff in I as (k & <- & I).
      pose proof (List.find_none _ _ E k I) as X. cbn beta in X. destruct (list_eq_dec _ _ _) as [_|X2]; [congruence|apply X2; reflexivity].
    + unfold ro0, mn0. rewrite num_after_dec by lia. reflexivity.
    + unfold ro0, zn0. change (num_after [95; 95; 109] ([95; 95; 122] ++ decimal (Z.of_nat k))) with (@None Z).
      rewrite num_after_dec by lia. reflexivity.
  - intros n [[[x|a] ->]|[I|[k ->]]].
    + apply ro0_chr; try reflexivity. intros c _ E. destruct (character_last (Z.of_nat c)) as [_ [r Er]]. rewrite Er in E. discriminate.
    + cbn [nm]. destruct (decimal_head a) as (c & r & Ed & Hc). rewrite Ed. apply ro0_chr.
      * intros d _ E. destruct (character_last (Z.of_nat d)) as [_ [r2 Er]]. rewrite Er in E. inversion E. congruence.
      * apply num_after_none. right. congruence.
      * apply num_after_none. right. congruence.
    + repeat (destruct I as [<-|I]; [reflexivity|]). destruct I.
    + destruct (decimal_head k) as (c & r & Ed & Hc). pose proof (dec_last k) as L. unfold stk. apply ro0_chr.
      * intros d _ E. destruct (character_last (Z.of_nat d)) as [La _]. rewrite E in La. rewrite Ed in La, L. apply L. exact La.
      * unfold num_after. rewrite Ed. cbn [app after]. rewrite !Z.eqb_refl. destruct (Z.eqb_spec 109 c) as [<-|]; [|reflexivity].
        exfalso. destruct (Z.ltb_spec k 0) as [Hk|Hk]; [rewrite decimal_neg in Ed by lia; discriminate|].
        destruct (dec_head k Hk) as (c & r' & Ed' & I). rewrite Ed in Ed'. inversion Ed'; subst c. cbn in I. lia.
      * unfold num_after. rewrite Ed. cbn [app after]. rewrite !Z.eqb_refl. destruct (Z.eqb_spec 122 c) as [<-|]; [|reflexivity].
        exfalso. destruct (Z.ltb_spec k 0) as [Hk|Hk]; [rewrite decimal_neg in Ed by lia; discriminate|].
        destruct (dec_head k Hk) as (c & r' & Ed' & I). rewrite Ed in Ed'. inversion Ed'; subst c. cbn in I. lia.
  - intros x. split; [|discriminate]. intros I. repeat (destruct I as [E|I]; [discriminate E|]). destruct I.
Qed.
(* the expansions of C19 are those of some shell (classical description: only here) *)
Lemma c50_shell : exists sev, setting 64 sev ro0 vn0 mn0 zn0 moff0 zsz0.
Proof.
  exists (fun t g => match ClassicalDescription.excluded_middle_informative (exists r, exp 64 t g (fst r) (snd r)) with
                     | left H => Some (proj1_sig (Description.constructive_definite_description
                                   (fun r => exp 64 t g (fst r) (snd r))
                                   (match H with ex_intro _ r Hr => ex_intro _ r (conj Hr (fun r2 H2 =>
                                      let q := proj1 (exp_ari_fun 64) _ _ _ _ Hr _ _ H2 in
                                      eq_trans (surjective_pairing r) (eq_trans (f_equal2 pair (proj1 q) (proj2 q)) (eq_sym (surjective_pairing r2))))) end)))
                     | right _ => None
                     end).
  apply setting0; [lia|]. intros t g l g1 X.
  destruct (ClassicalDescription.excluded_middle_informative _) as [H|H].
  - match goal with |- Some (proj1_sig ?a) = _ => destruct a as [[l2 g2] X2]; cbn [proj1_sig fst snd] in * end.
    destruct (proj1 (exp_ari_fun 64) _ _ _ _ X _ _ X2) as [-> ->]. reflexivity.
  - exfalso. apply H. exists (l, g1). exact X.
Qed.

(** ** pnut's names (C26) *)
Lemma c50_names : forall isloc (vx mx zx : nat -> name) moff zsz,
  (forall z, isloc z = true -> PropShNames.fine (ShNames.OLocal z)) ->
  (forall i, is_ident (vx i) /\ (isloc (vx i) = false -> hd 0 (vx i) <> 95)) -> (forall i j, vx i = vx j -> i = j) ->
  (forall k, is_ident (mx k)) -> (forall k, is_ident (zx k)) ->
  let vn := fun i => ShNames.env_var isloc (vx i) in
  names_ok vn (fun k => ShNames.struct_member_var (mx k)) (fun k => ShNames.struct_sizeof_var (zx k)) moff zsz /\
  forall x, ~ In (vn x) [SP; TMP; CODE; none_name] /\ forall k, vn x <> stk k.
Proof.
  intros isloc vx mx zx moff zsz HL HV HI HM HZ vn. split; [apply PropShNames.c26_names_ok; assumption|].
  assert (X : forall x r, vn x <> 95 :: 95 :: r).
  { intros x r. unfold vn, ShNames.env_var. destruct (isloc (vx x)) eqn:E.
    - destruct (PropShNames.local_head (vx x) (HL _ E)) as (c & q & -> & Hc). congruence.
    - destruct (HV x) as [_ H]. specialize (H E). intros Y. unfold ShNames.global_var in Y. cbn in Y. inversion Y as [Z1]. rewrite Z1 in H. apply H. reflexivity. }
  intros x. split.
  - intros I. repeat (destruct I as [E|I]; [symmetry in E; revert E; apply X|]). destruct I.
  - intros k. apply X.
Qed.

(** ** A program *)
(* int f(int n) { if (n == 0) return 1; t = f(n - 1); return n * t; }
   int main() { x = f(5); putchar(x / 2 + 5); while (i < 3 && x) { putchar('a' + i); i++; } exit(f(i)); }
   numbers: n 0, t 1, x 2, i 3, the result of the hoisted call of exit 4 *)
Definition prog0 : list fdef :=
  [ FD [0%nat] [1%nat]
      (Scons [] (SIf (CLeaf [] (XBin EQ_EQ (XVar 0) (XInt 0))) (SReturn (QRet [] (XInt 1))) SEmpty)
      (Scons [] (SAtom (QCall [] (Some (XVar 1)) 0 [XBin MINUS (XVar 0) (XInt 1)]))
      (Scons [] (SReturn (QRet [] (XBin STAR (XVar 0) (XVar 1)))) Snil)));
    FD [] [2%nat; 3%nat; 4%nat]
      (Scons [] (SAtom (QCall [] (Some (XVar 2)) 0 [XInt 5]))
      (Scons [] (SAtom (QPutc [] (XBin PLUS (XBin SLASHC (XVar 2) (XInt 2)) (XInt 5))))
      (Scons [] (SWhile (CLog true (CLeaf [] (XBin LT (XVar 3) (XInt 3))) (CLeaf [] (XVar 2)))
         (SBlock (Scons [] (SAtom (QPutc [] (XBin PLUS (XChr 97) (XVar 3))))
                 (Scons [] (SAtom (QExpr [] (XPost true (XVar 3)))) Snil))))
      (Scons [] (SAtom (QExit [HC 4 0 [XVar 3]] (XVar 4))) Snil)))) ].
Lemma prog0_run : crun moff0 zsz0 true 100 (nth_error prog0) 20 1 (fun _ => 0) = ([65; 97; 98; 99], Exited 6).
Proof. vm_compute. reflexivity. Qed.
Lemma c50_instance : exists sev loc frd, setting 64 sev ro0 vn0 mn0 zn0 moff0 zsz0 /\
  script vn0 mn0 zn0 (nth_error prog0) (crd vn0 mn0 zn0) loc frd /\
  srun sev ro0 vn0 mn0 zn0 100 (crd vn0 mn0 zn0) loc frd 20 1 (fun _ => 0) = ([65; 97; 98; 99], Exited 6).
Proof.
  destruct c50_shell as [sev HS].
  destruct (script_exists vn0 mn0 zn0 prog0) as (loc & frd & HP).
  { repeat constructor; try discriminate; try (intros I; repeat (destruct I as [E|I]; [discriminate E|]); destruct I). }
  exists sev, loc, frd. split; [exact HS|]. split; [exact HP|].
  apply (c50_result_partial 64 sev ro0 vn0 mn0 zn0 moff0 zsz0 HS _ _ _ _ HP). exact prog0_run.
Qed.

(** ** Two things that go wrong *)
(* main() { (x = 65); putchar(x); } is compiled like main() { putchar(x); } *)
Definition lost (s : stmts atom cond sval pc) : fdef := FD [] [] s.
Definition asg1 : atom := QExpr [] (XPar (XAsg EQ (XVar 0) (XInt 65))).
Theorem c50_assignment_refuted :
  let d := lost (Scons [] (SAtom asg1) (Scons [] (SAtom (QPutc [] (XVar 0))) (Scons [] (SReturn (QRet [] (XInt 0))) Snil))) in
  crun moff0 zsz0 true 100 (nth_error [d]) 9 0 (fun _ => 0) = ([65], Exited 0) /\
  forall sev loc frd code, setting 64 sev ro0 vn0 mn0 zn0 moff0 zsz0 ->
    fcode vn0 mn0 zn0 d = Some code -> prog cond sval pc kcmd code (frd 0%nat) ->
    (forall f, loc f = option_map (fun d => fparams d ++ flocals d) (nth_error [d] f)) ->
    srun sev ro0 vn0 mn0 zn0 100 (crd vn0 mn0 zn0) loc frd 9 0 (fun _ => 0) = ([0], Exited 0).
Proof.
  intros d. split; [vm_compute; reflexivity|]. intros sev loc frd code HS Hc Hp HL.
  set (d2 := lost (Scons [] (SAtom (QPutc [] (XVar 0))) (Scons [] (SReturn (QRet [] (XInt 0))) Snil))).
  assert (E : fcode vn0 mn0 zn0 d = fcode vn0 mn0 zn0 d2) by (vm_compute; reflexivity).
  assert (HP : script vn0 mn0 zn0 (nth_error [d2]) (crd vn0 mn0 zn0) loc frd).
  { split; [|split; [intros t; apply crd_g|]].
    - intros [|f] x Hx; [|destruct f; discriminate]. inversion Hx; subst x.
      split; [split; [constructor|split; reflexivity]|]. exists code. rewrite <- E. auto.
    - intros f. rewrite HL. destruct f as [|[|f]]; reflexivity. }
  exact (c50_result_partial 64 sev ro0 vn0 mn0 zn0 moff0 zsz0 HS _ _ _ _ HP 100 9 0 (fun _ => 0) [0] 0 eq_refl).
Qed.
(* putchar(x = x + 1) with x = 64: the argument is evaluated for each octal digit; \103 is written *)
Theorem c50_putchar_refuted :
  let a := QPutc [] (XAsg EQ (XVar 0) (XBin PLUS (XVar 0) (XInt 1))) in
  let s := mk [64] [] in
  (exists c, cact moff0 zsz0 true 100 (fun _ _ c => Norm c) a (CS s [] None Running) = Norm c /\ co c = [65] /\ cs c (LV 0) = 65) /\
  forall sev callf r ps, setting 64 sev ro0 vn0 mn0 zn0 moff0 zsz0 ->
    exists k h, gen vn0 mn0 zn0 a = [k] /\ scmd sev ro0 100 callf r ps k (HS (st0 s) [] Running) = Norm h /\ ho h = [67] /\ hg h (vn0 0) = 67.
Proof.
  intros a s. split.
  - eexists. split; [vm_compute; reflexivity|]. split; vm_compute; reflexivity.
  - intros sev callf r ps ST. eexists. 
    set (w := chs [40] ++ comp_rvalue_go vn0 mn0 zn0 (XAsg EQ (XVar 0) (XBin PLUS (XVar 0) (XInt 1))) true 0 ++ chs [41]).
    set (u := TAs EQ (vn0 0) (TBi PLUS (n_ 0) (TNu 1))).
    assert (HN : 32 <= 64) by lia.
    destruct (prim_par 64 (lev u) (str u) _ _ (tx_syn 64 HN u eq_refl)) as (ts & t & P); [cbn; lia|].
    assert (X : forall g v, g (vn0 0) = v -> 0 <= v < 255 ->
      ari 64 (w ++ chs suf1) g (Z.quot (v + 1) 64) (setv (vn0 0) (v + 1) g) /\
      ari 64 (w ++ chs suf2) g (Z.rem (Z.quot (v + 1) 8) 8) (setv (vn0 0) (v + 1) g) /\
      ari 64 (w ++ chs suf3) g (Z.rem (v + 1) 8) (setv (vn0 0) (v + 1) g)).
    { intros g v Hg Hv. eapply (put_ari 64 HN w g ([40] ++ str u ++ [41]) g ts t (tden 64 u)); [|exact P| |].
      - replace w with (chs ([40] ++ str u ++ [41])) by reflexivity. apply exp_chs.
      - cbn [u tden n_]. unfold dasg, dbin. change (PLUS =? AMP_AMP) with false. change (PLUS =? BAR_BAR) with false. cbv iota.
        unfold dop. rewrite Hg. change (arith 64 PLUS v 1) with (Some (wrapN 64 (v + 1))). rewrite (small 64 HN) by lia. reflexivity.
      - unfold byte. apply andb_true_iff. split; [apply Z.leb_le|apply Z.ltb_lt]; lia. }
    set (g0 := overlay ro0 (st0 s)). set (g1 := setv (vn0 0) (64 + 1) g0). set (g2 := setv (vn0 0) (65 + 1) g1). set (g3 := setv (vn0 0) (66 + 1) g2).
    destruct (X g0 64) as (X1 & _ & _); [vm_compute; reflexivity|lia|].
    destruct (X g1 65) as (_ & X2 & _); [apply setv_same|lia|].
    destruct (X g2 66) as (_ & _ & X3); [apply setv_same|lia|].
    exists (HS g3 [67] Running). split; [reflexivity|]. split; [|split; [reflexivity|apply setv_same]].
    cbn [scmd]. unfold wexp. cbn [hg]. fold w. fold g0.
    assert (M : exp 64 [Ar (w ++ chs suf1); Ar (w ++ chs suf2); Ar (w ++ chs suf3)] g0 [49; 48; 51] g3).
    { change [49; 48; 51] with (decimal (Z.quot (64 + 1) 64) ++ decimal (Z.rem (Z.quot (65 + 1) 8) 8) ++ decimal (Z.rem (66 + 1) 8) ++ []).
      eapply e_ar; [exact X1|]. eapply e_ar; [exact X2|]. eapply e_ar; [exact X3|]. apply e_nil. }
    unfold suf1, suf2, suf3 in M. rewrite (st_shell _ _ _ _ _ _ _ _ ST _ _ _ _ M). reflexivity.
Qed.
