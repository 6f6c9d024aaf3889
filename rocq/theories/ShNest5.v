(** * Whole programs with calls in their expressions: renaming of parts, what calls leave alone, simulation *)
From Coq Require Import ZArith List Lia Bool.
From Verif Require Import Base Ast Parse ShArith ShExpr ShCSem ShEqs ShSem ShMain ShStmt ShProg ShProg2 ShProg3 ShLock ShNest ShNest1 ShNest2 ShNest3 ShNest4.
Import ListNotations.
Open Scope Z_scope.
Local Notation length := List.length.

(** ** Mapping the parts of statements *)
Section MapEval.
Variables (A T V P A' T' V' St : Type) (fa : A -> A') (ft : T -> T') (fv : V -> V').
Variables (act : A' -> St -> ares St) (tst : T' -> St -> tres St) (val : V' -> St -> vres St) (kval : P -> Z).
Notation ev := (ceval A T V P St (fun a => act (fa a)) (fun t => tst (ft t)) (fun v => val (fv v)) kval).
Notation evs := (cevals A T V P St (fun a => act (fa a)) (fun t => tst (ft t)) (fun v => val (fv v)) kval).
Notation jm := (cjump A T V P St (fun a => act (fa a)) (fun t => tst (ft t)) (fun v => val (fv v)) kval).
Notation ev' := (ceval A' T' V' P St act tst val kval).
Notation evs' := (cevals A' T' V' P St act tst val kval).
Notation jm' := (cjump A' T' V' P St act tst val kval).
Lemma cloop_map t e f f' : (forall s, f' s = f s) -> forall n s,
  cloop A' T' St act tst (option_map ft t) f' (option_map fa e) n s =
  cloop A T St (fun a => act (fa a)) (fun t => tst (ft t)) t f e n s.
Proof.
  intros F. induction n as [|n IH]; intros s; [reflexivity|]. cbn [cloop].
  assert (N : forall s2, match option_map fa e with
      | Some a => match act a s2 with Norm s3 => cloop A' T' St act tst (option_map ft t) f' (option_map fa e) n s3 | Halt s3 => Some (CH s3) end
      | None => cloop A' T' St act tst (option_map ft t) f' (option_map fa e) n s2 end =
    match e with
      | Some a => match act (fa a) s2 with Norm s3 => cloop A T St (fun a => act (fa a)) (fun t => tst (ft t)) t f e n s3 | Halt s3 => Some (CH s3) end
      | None => cloop A T St (fun a => act (fa a)) (fun t => tst (ft t)) t f e n s2 end).
  { intros s2. destruct e as [a|]; cbn [option_map] in *; [|apply IH]. destruct (act (fa a) s2); [apply IH|reflexivity]. }
  assert (G : forall s1, match f' s1 with
        | Some (CN s2) | Some (CC s2) => match option_map fa e with
            | Some a => match act a s2 with Norm s3 => cloop A' T' St act tst (option_map ft t) f' (option_map fa e) n s3 | Halt s3 => Some (CH s3) end
            | None => cloop A' T' St act tst (option_map ft t) f' (option_map fa e) n s2 end
        | Some (CB s2) => Some (CN s2) | Some (CR s2) => Some (CR s2) | Some (CH s2) => Some (CH s2) | None => None end =
      match f s1 with
        | Some (CN s2) | Some (CC s2) => match e with
            | Some a => match act (fa a) s2 with Norm s3 => cloop A T St (fun a => act (fa a)) (fun t => tst (ft t)) t f e n s3 | Halt s3 => Some (CH s3) end
            | None => cloop A T St (fun a => act (fa a)) (fun t => tst (ft t)) t f e n s2 end
        | Some (CB s2) => Some (CN s2) | Some (CR s2) => Some (CR s2) | Some (CH s2) => Some (CH s2) | None => None end).
  { intros s1. rewrite F. destruct (f s1) as [[s2|s2|s2|s2|s2]|]; try reflexivity; apply N. }
  destruct t as [t|]; cbn [option_map] in *; [|apply G]. destruct (tst (ft t) s) as [[] s1|s1]; [apply G|reflexivity..].
Qed.
Lemma dloop_map t f f' : (forall s, f' s = f s) -> forall n s,
  dloop T' St tst f' (ft t) n s = dloop T St (fun t => tst (ft t)) f t n s.
Proof.
  intros F. induction n as [|n IH]; intros s; [reflexivity|]. cbn [dloop]. rewrite F.
  destruct (f s) as [[s2|s2|s2|s2|s2]|]; try reflexivity; destruct (tst (ft t) s2) as [[] s1|s1]; auto.
Qed.
Lemma from_map g l : from A' T' V' P g (smaps fa ft fv l) = option_map (smaps fa ft fv) (from A T V P g l).
Proof. induction l as [|ls c r IH]; [reflexivity|]. cbn [smaps from]. destruct (g ls); [reflexivity|exact IH]. Qed.
Theorem eval_map :
  (forall c F s, ev' F (smap fa ft fv c) s = ev F c s) /\
  (forall l, (forall F s, evs' F (smaps fa ft fv l) s = evs F l s) /\ (forall F g s, jm' F g (smaps fa ft fv l) s = jm F g l s)).
Proof.
  apply stmt_stmts_ind. 1-13: cbn [smap smaps].
  - reflexivity.
  - reflexivity.
  - intros t a IHa b IHb F s. cbn [ceval]. destruct (tst (ft t) s) as [[] s1|s1]; auto.
  - intros t b IHb F s. cbn [ceval]. exact (cloop_map (Some t) None (ev F b) (ev' F (smap fa ft fv b)) (IHb F) F s).
  - intros b IHb t F s. cbn [ceval]. apply dloop_map. apply IHb.
  - intros i t e b IHb F s. cbn [ceval].
    replace (to_int A' St act (option_map fa i) s) with (to_int A St (fun a => act (fa a)) i s) by (destruct i; reflexivity).
    destruct (to_int _ _ _ i s); [|reflexivity]. apply cloop_map. apply IHb.
  - intros v l [_ IHl] F s. rewrite !switch_eq. destruct (val (fv v) s) as [z s1|s1]; [|reflexivity]. rewrite from_map.
    destruct (from A T V P (has_case P kval z) l); cbn [option_map]; rewrite IHl; reflexivity.
  - reflexivity.
  - reflexivity.
  - reflexivity.
  - intros l [IHl _] F s. cbn [ceval]. apply IHl.
  - intros c IHc F s. cbn [ceval]. apply IHc.
  - split; reflexivity.
  - intros ls c IHc r [I1 I2]. change (smaps fa ft fv (Scons ls c r)) with (Scons ls (smap fa ft fv c) (smaps fa ft fv r)).
    assert (X : forall F s, evs' F (Scons ls (smap fa ft fv c) (smaps fa ft fv r)) s = evs F (Scons ls c r) s).
    { intros F s. change (evs' F (Scons ls (smap fa ft fv c) (smaps fa ft fv r)) s) with
        (match ev' F (smap fa ft fv c) s with Some (CN s1) => evs' F (smaps fa ft fv r) s1 | o => o end).
      change (evs F (Scons ls c r) s) with (match ev F c s with Some (CN s1) => evs F r s1 | o => o end). rewrite IHc. destruct (ev F c s) as [[]|]; first [apply I1|reflexivity]. }
    split; [exact X|]. intros F g s.
    change (jm' F g (Scons ls (smap fa ft fv c) (smaps fa ft fv r)) s) with (if g ls then evs' F (Scons ls (smap fa ft fv c) (smaps fa ft fv r)) s else jm' F g (smaps fa ft fv r) s).
    change (jm F g (Scons ls c r) s) with (if g ls then evs F (Scons ls c r) s else jm F g r s). destruct (g ls); [apply X|apply I2].
Qed.
End MapEval.
Lemma number_eq tb c : number tb c =
  match c with
  | SEmpty => SEmpty | SBreak => SBreak | SContinue => SContinue
  | SAtom a => SAtom a
  | SIf t a b => SIf (at0 t) (number tb a) (number tb b)
  | SWhile t b => SWhile (at0 t) (number tb b)
  | SDo b t => SDo (number tb b) (at0 t)
  | SFor i t e b =>
      SFor i (option_map (fun t => (t, match i with Some a => snd (lift_atom tb a) | None => 0%nat end)) t) e (number tb b)
  | SSwitch v l => SSwitch v (numbers tb l)
  | SReturn a => SReturn a
  | SBlock l => SBlock (numbers tb l)
  | SLabel c => SLabel (number tb c)
  end.
Proof. destruct c; reflexivity. Qed.
Lemma numbers_eq tb l : numbers tb l = match l with Snil => Snil | Scons ls c r => Scons ls (number tb c) (numbers tb r) end.
Proof. destruct l; reflexivity. Qed.
Section SmapEq.
Variables (A T V P A' T' V' : Type) (fa : A -> A') (ft : T -> T') (fv : V -> V').
Lemma smap_eq (c : stmt A T V P) : smap fa ft fv c =
  match c with
  | SEmpty => SEmpty | SBreak => SBreak | SContinue => SContinue
  | SAtom a => SAtom (fa a)
  | SIf t a b => SIf (ft t) (smap fa ft fv a) (smap fa ft fv b)
  | SWhile t b => SWhile (ft t) (smap fa ft fv b)
  | SDo b t => SDo (smap fa ft fv b) (ft t)
  | SFor i t e b => SFor (option_map fa i) (option_map ft t) (option_map fa e) (smap fa ft fv b)
  | SSwitch v l => SSwitch (fv v) (smaps fa ft fv l)
  | SReturn a => SReturn (fa a)
  | SBlock l => SBlock (smaps fa ft fv l)
  | SLabel c => SLabel (smap fa ft fv c)
  end.
Proof. destruct c; reflexivity. Qed.
Lemma smaps_eq (l : stmts A T V P) : smaps fa ft fv l = match l with Snil => Snil | Scons ls c r => Scons ls (smap fa ft fv c) (smaps fa ft fv r) end.
Proof. destruct l; reflexivity. Qed.
End SmapEq.
Section EveryEq.
Variables (A T V P : Type) (pa pr : A -> bool) (pt : T -> bool) (pv : V -> bool).
Notation every := (every A T V P pa pr pt pv). Notation everys := (everys A T V P pa pr pt pv).
Lemma every_eq c : every c =
  match c with
  | SEmpty | SBreak | SContinue => true
  | SAtom a => pa a
  | SIf t a b => pt t && every a && every b
  | SWhile t b | SDo b t => pt t && every b
  | SFor i t e b => opt pa i && opt pt t && opt pa e && every b
  | SSwitch v l => pv v && everys l
  | SReturn a => pr a
  | SBlock l => everys l
  | SLabel c => every c
  end.
Proof. destruct c; reflexivity. Qed.
Lemma everys_eq l : everys l = match l with Snil => true | Scons _ c r => every c && everys r end.
Proof. destruct l; reflexivity. Qed.
End EveryEq.
Lemma scalls_eq c : scalls c =
  match c with
  | SEmpty | SBreak | SContinue => []
  | SAtom a | SReturn a => acalls a
  | SIf t a b => ccalls t ++ scalls a ++ scalls b
  | SWhile t b | SDo b t => ccalls t ++ scalls b
  | SFor i t e b => match i with Some a => acalls a | None => [] end ++ match t with Some t => ccalls t | None => [] end
                    ++ match e with Some a => acalls a | None => [] end ++ scalls b
  | SSwitch v l => fst v ++ scallss l
  | SBlock l => scallss l
  | SLabel c => scalls c
  end.
Proof. destruct c; reflexivity. Qed.
Lemma scallss_eq l : scallss l = match l with Snil => [] | Scons _ c r => scalls c ++ scallss r end.
Proof. destruct l; reflexivity. Qed.
Ltac eqs := rewrite ?number_eq, ?numbers_eq, ?smap_eq, ?smaps_eq, ?every_eq, ?everys_eq, ?scalls_eq, ?scallss_eq; cbv beta iota.
Lemma unnumber tb :
  (forall c, smap (fun a => a) fst (fun v => v) (number tb c) = c) /\ (forall l, smaps (fun a => a) fst (fun v => v) (numbers tb l) = l).
Proof.
  apply stmt_stmts_ind; intros;
    match goal with |- smap _ _ _ (number tb ?c) = _ => rewrite (number_eq tb c) | |- smaps _ _ _ (numbers tb ?c) = _ => rewrite (numbers_eq tb c) end; cbv beta iota;
    match goal with |- smap ?a ?b ?d ?c = _ => rewrite (smap_eq _ _ _ _ _ _ _ a b d c) | |- smaps ?a ?b ?d ?c = _ => rewrite (smaps_eq _ _ _ _ _ _ _ a b d c) end;
    cbn [at0 fst]; try congruence.
  rewrite H. destruct i; destruct t; destruct e; reflexivity.
Qed.
Lemma every_number tb pa pr pt pv :
  (forall c, every yatom (ycond * nat) ye pc pa pr (fun t => pt (fst t)) pv (number tb c) = every yatom ycond ye pc pa pr pt pv c) /\
  (forall l, everys yatom (ycond * nat) ye pc pa pr (fun t => pt (fst t)) pv (numbers tb l) = everys yatom ycond ye pc pa pr pt pv l).
Proof.
  apply stmt_stmts_ind; intros;
    match goal with |- context [number tb ?c] => rewrite (number_eq tb c) | |- context [numbers tb ?c] => rewrite (numbers_eq tb c) end; cbv beta iota;
first [etransitivity; [apply every_eq|]; etransitivity; [|symmetry; apply every_eq]|etransitivity; [apply everys_eq|]; etransitivity; [|symmetry; apply everys_eq]]; cbn [at0 fst]; try congruence.
  rewrite H. destruct t; reflexivity.
Qed.
