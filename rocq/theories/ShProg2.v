(** * Whole programs compiled to shell scripts: putchar *)
From Coq Require Import ZArith List Lia Bool.
From Verif Require Import Base Numerals Output Ast Parse ShArith ShExpr ShCSem ShEqs ShFacts ShFacts2 ShSyn ShSem ShMain ShMain6 ShStmt ShProg ShLock ShProg1.
Import ListNotations.
Open Scope Z_scope.
Local Notation length := List.length.

(** ** Expressions without assignments write nothing *)
Section Noeff.
Variables (moff zsz : nat -> Z).
Notation cev := (cev moff zsz). Notation clv := (clv moff zsz).
Definition nw {A} (r : option (A * store * list loc * list loc)) : Prop := forall v s R W, r = Some (v, s, R, W) -> W = [].
Lemma nw_pair ra rb f : nw ra -> (forall s, nw (rb s)) -> nw (cpair ra rb f).
Proof.
  intros Ha Hb v s' R W E. unfold cpair in E. destruct ra as [[[[va sa] Ra] Wa]|]; [|discriminate].
  destruct (rb sa) as [[[[vb sb] Rb] Wb]|] eqn:Eb; [|discriminate].
  destruct (race _ _ _ _); [discriminate|]. destruct (f va vb); [|discriminate]. inversion E; subst.
  rewrite (Ha _ _ _ _ eq_refl), (Hb _ _ _ _ _ Eb). reflexivity.
Qed.
Lemma nw_then ra k : nw ra -> (forall v s, nw (k v s)) -> nw (ShCSem.cthen ra k).
Proof.
  intros Ha Hb v s' R W E. unfold ShCSem.cthen in E. destruct ra as [[[[va sa] Ra] Wa]|]; [|discriminate].
  destruct (k va sa) as [[[[vb sb] Rb] Wb]|] eqn:Eb; [|discriminate]. inversion E; subst.
  rewrite (Ha _ _ _ _ eq_refl), (Hb _ _ _ _ _ _ Eb). reflexivity.
Qed.
Lemma nw_map ra f : nw ra -> nw (cmap ra f).
Proof.
  intros Ha v s' R W E. unfold cmap in E. destruct ra as [[[[va sa] Ra] Wa]|]; [|discriminate].
  destruct (f va); [|discriminate]. inversion E; subst. eapply Ha; reflexivity.
Qed.
Lemma nw_at ra : nw ra -> nw (at_addr ra).
Proof.
  intros Ha v s' R W E. unfold at_addr in E. destruct ra as [[[[va sa] Ra] Wa]|]; [|discriminate].
  destruct (0 <=? va); [|discriminate]. inversion E; subst. eapply Ha; reflexivity.
Qed.
Lemma nw_load rl : nw rl -> nw (load rl).
Proof.
  intros Ha v s' R W E. unfold load in E. destruct rl as [[[[va sa] Ra] Wa]|]; [|discriminate].
  destruct (mem va Wa); [discriminate|]. inversion E; subst. eapply Ha; reflexivity.
Qed.
Lemma nw_some {A} (v : A) s R : nw (Some (v, s, R, [])).
Proof. intros v' s' R' W' E. inversion E; subst. reflexivity. Qed.
Lemma noeff_w e : noeff e = true -> (forall s, nw (cev e s)) /\ (forall s, nw (clv e s)).
Proof.
  induction e; cbn [noeff]; intros Hn; rewrite ?andb_true_iff in Hn; try discriminate;
    repeat match goal with H : _ /\ _ |- _ => destruct H end;
    repeat match goal with IH : ?a = true -> _, H : ?a = true |- _ => specialize (IH H); destruct IH end;
    (split; intros s; [rewrite cev_eq|rewrite clv_eq]; cbv beta iota);
    try apply nw_some; try (intros ? ? ? ? E; discriminate E); auto.
  all: try apply nw_load; try apply nw_at; try apply nw_map; auto; try (apply nw_pair; auto; fail); try (apply nw_then; auto; fail).
  - intros v s' R W E. destruct (clv e s) as [[[[[x|a] s1] R1] W1]|] eqn:El; try discriminate. inversion E; subst.
    match goal with K : forall s, nw (clv e s) |- _ => eapply K; exact El end.
  - destruct (op =? AMP_AMP); [|destruct (op =? BAR_BAR)].
    + apply nw_then; auto. intros v s1. destruct (v =? 0); [apply nw_some|apply nw_map; auto].
    + apply nw_then; auto. intros v s1. destruct (v =? 0); [apply nw_map; auto|apply nw_some].
    + apply nw_pair; auto.
  - apply nw_then; auto. intros v s1. destruct (v =? 0); auto.
Qed.
End Noeff.

(** ** The three octal digits *)
Lemma lex_div r ts : match r with c :: _ => is_dig c = true | [] => False end -> lexr r ts -> lexr ([47] ++ r) (TOp SLASHC :: ts).
Proof.
  intros D L. apply (l_op [47] SLASHC); [cbn; tauto| |exact L].
  destruct r as [|c r]; [contradiction|]. intros p' op' H' [q E]. unfold op_table in H'. cbn [In] in H'.
  repeat (destruct H' as [H'|H']; [inversion H'; subst; cbn [app] in E; try discriminate; cbn [length]; try lia;
    injection E as E; subst c; discriminate D|]). contradiction.
Qed.
Lemma lex_rem r ts : match r with c :: _ => is_dig c = true | [] => False end -> lexr r ts -> lexr ([37] ++ r) (TOp PERCENT :: ts).
Proof.
  intros D L. apply (l_op [37] PERCENT); [cbn; tauto| |exact L].
  destruct r as [|c r]; [contradiction|]. intros p' op' H' [q E]. unfold op_table in H'. cbn [In] in H'.
  repeat (destruct H' as [H'|H']; [inversion H'; subst; cbn [app] in E; try discriminate; cbn [length]; try lia;
    injection E as E; subst c; discriminate D|]). contradiction.
Qed.
Lemma lex_8 r ts : match r with c :: _ => is_word c = false | [] => True end -> lexr r ts -> lexr ([56] ++ r) (TNum 8 :: ts).
Proof.
  intros D L. apply (l_word [56] (TNum 8)); [reflexivity|exact D| |exact L].
  eapply w_dec; [reflexivity|discriminate|reflexivity|reflexivity].
Qed.
Lemma lex_64 : lexr [54; 52] [TNum 64].
Proof.
  apply (l_word [54; 52] (TNum 64) []); [reflexivity|exact I| |constructor].
  eapply w_dec; [reflexivity|discriminate|reflexivity|reflexivity].
Qed.
(* what printf \abc needs *)
Definition digits_ok (v : Z) : bool :=
  match decimal (Z.quot v 64) ++ decimal (Z.rem (Z.quot v 8) 8) ++ decimal (Z.rem v 8) with
  | [a; b; c] => match numeral_value 8 [a; b; c] with Some w => w =? v | None => false end
  | _ => false
  end.
Lemma digits v : byte v = true -> exists a b c,
  decimal (Z.quot v 64) ++ decimal (Z.rem (Z.quot v 8) 8) ++ decimal (Z.rem v 8) = [a; b; c] /\ numeral_value 8 [a; b; c] = Some v.
Proof.
  intros B. assert (F : forallb (fun k => digits_ok (Z.of_nat k)) (seq 0 256) = true) by (vm_compute; reflexivity).
  unfold byte in B. rewrite andb_true_iff, Z.leb_le, Z.ltb_lt in B. rewrite forallb_forall in F.
  specialize (F (Z.to_nat v) ltac:(apply in_seq; lia)). rewrite Z2Nat.id in F by lia. unfold digits_ok in F.
  destruct (decimal (Z.quot v 64) ++ decimal (Z.rem (Z.quot v 8) 8) ++ decimal (Z.rem v 8)) as [|a [|b [|c [|]]]]; try discriminate.
  exists a, b, c. split; [reflexivity|]. destruct (numeral_value 8 [a; b; c]); [|discriminate]. apply Z.eqb_eq in F. congruence.
Qed.

Section Putc.
Variables (N : Z) (HN : 32 <= N).
(* an operand of the highest level, followed by an operator *)
Definition prim (ch : list Z) (ts : list tok) (t : at_) (f : den) : Prop :=
  (forall r tr, match r with c :: _ => c = 47 \/ c = 37 | [] => True end -> lexr r tr -> lexr (ch ++ r) (ts ++ tr)) /\
  AG 0 ts t /\ deq (aev N t) f.
Lemma prim_var n : is_ident n -> prim n [TName n] (AVar n) (fun s => Some (s n, s)).
Proof.
  intros I. split; [|split; [constructor|intros s; reflexivity]].
  intros r tr S L. cbn. apply l_word; [apply I| |constructor; exact I|exact L].
  destruct r; [exact Logic.I|]. destruct S as [->| ->]; reflexivity.
Qed.
Lemma prim_par l ch m f : SynE N l ch m f -> (l <= 14)%nat -> exists ts t, prim ([40] ++ ch ++ [41]) ts t f.
Proof.
  intros (ts & t & L & A & D & _) Hl. exists (TOp LPAR :: ts ++ [TOp RPAR]), (APar t). split; [|split].
  - intros r tr S K. cbn [app]. rewrite <- !app_assoc. cbn [app].
    apply (l_op [40] LPAR (ch ++ 41 :: r) (ts ++ TOp RPAR :: tr)); [cbn; tauto| |].
    + intros p' op' H' St. eapply (table_head 40 1); eauto.
      repeat (constructor; [cbn; try (intros; discriminate); try lia|]). constructor.
    + apply L; [right; left; reflexivity|].
      apply (l_op [41] RPAR r tr); [cbn; tauto| |auto].
      intros p' op' H' St. eapply (table_head 41 1); eauto.
      repeat (constructor; [cbn; try (intros; discriminate); try lia|]). constructor.
  - constructor. eapply AGx_AG; eauto.
  - exact D.
Qed.
Definition suf1 : list Z := [47; 54; 52]. Definition suf2 : list Z := [47; 56; 37; 56]. Definition suf3 : list Z := [37; 56].
Lemma small v : 0 <= v < 256 -> wrapN N v = v.
Proof. intros H. apply wrapN_int; [exact HN|]. lia. Qed.
Lemma put_ari c g0 ch g1 ts t f v g3 : exp N c g0 ch g1 -> prim ch ts t f -> f g1 = Some (v, g3) -> byte v = true ->
  ari N (c ++ chs suf1) g0 (Z.quot v 64) g3 /\ ari N (c ++ chs suf2) g0 (Z.rem (Z.quot v 8) 8) g3 /\ ari N (c ++ chs suf3) g0 (Z.rem v 8) g3.
Proof.
  intros X (L & A & D) E B. unfold byte in B. rewrite andb_true_iff, Z.leb_le, Z.ltb_lt in B.
  assert (Q64 : 0 <= Z.quot v 64 < 256) by (rewrite Z.quot_div_nonneg by lia; split; [apply Z.div_pos; lia|apply Z.div_lt_upper_bound; lia]).
  assert (Q8 : 0 <= Z.quot v 8 < 256) by (rewrite Z.quot_div_nonneg by lia; split; [apply Z.div_pos; lia|apply Z.div_lt_upper_bound; lia]).
  assert (A1 : AG 1 ts t) by (apply ag_up; [lia|exact A]).
  assert (UP : forall us u, AG 1 us u -> AG 13 us u) by (intros us u H; eapply AG_le; [| |exact H]; lia).
  assert (BIN : forall op us u k, In op (binops 1) -> AG 1 us u -> AG 1 (us ++ [TOp op; TNum k]) (ABin op u (ANum k))).
  { intros op us u k Hop H. apply (ag_bin 0); [lia|exact Hop|exact H|constructor]. }
  split; [|split].
  - econstructor; [eapply exp_app; [exact X|apply exp_chs]| | |].
    + apply (L suf1 [TOp SLASHC; TNum 64]); [left; reflexivity|]. apply lex_div; [reflexivity|]. apply lex_64.
    + apply UP, BIN; [cbn; tauto|exact A1].
    + cbn [aev]. unfold dbin. change (SLASHC =? AMP_AMP) with false. change (SLASHC =? BAR_BAR) with false. cbv iota.
      unfold dop. rewrite D, E. cbn [aev]. change (arith N SLASHC v 64) with (Some (wrapN N (Z.quot v 64))). rewrite small by lia. reflexivity.
  - econstructor; [eapply exp_app; [exact X|apply exp_chs]| | |].
    + apply (L suf2 ([TOp SLASHC; TNum 8] ++ [TOp PERCENT; TNum 8])); [left; reflexivity|]. apply lex_div; [reflexivity|].
      apply lex_8; [reflexivity|]. apply lex_rem; [reflexivity|]. apply (lex_8 []); [exact I|constructor].
    + rewrite app_assoc. apply UP, BIN; [cbn; tauto|]. apply BIN; [cbn; tauto|exact A1].
    + cbn [aev]. unfold dbin. change (SLASHC =? AMP_AMP) with false. change (SLASHC =? BAR_BAR) with false.
      change (PERCENT =? AMP_AMP) with false. change (PERCENT =? BAR_BAR) with false. cbv iota.
      unfold dop. rewrite D, E. cbn [aev]. change (arith N SLASHC v 8) with (Some (wrapN N (Z.quot v 8))). rewrite small by lia. reflexivity.
  - econstructor; [eapply exp_app; [exact X|apply exp_chs]| | |].
    + apply (L suf3 [TOp PERCENT; TNum 8]); [right; reflexivity|]. apply lex_rem; [reflexivity|]. apply (lex_8 []); [exact I|constructor].
    + apply UP, BIN; [cbn; tauto|exact A1].
    + cbn [aev]. unfold dbin. change (PERCENT =? AMP_AMP) with false. change (PERCENT =? BAR_BAR) with false. cbv iota.
      unfold dop. rewrite D, E. reflexivity.
Qed.
End Putc.

Section Sim.
Variables (N : Z) (sev : list item -> vars -> option (list Z * vars)) (ro : name -> option Z).
Variables (vn mn zn : nat -> name) (moff zsz : nat -> Z).
Hypothesis SET : setting N sev ro vn mn zn moff zsz.
Notation rv := (comp_rvalue_go vn mn zn).
Notation overlay := (overlay ro). Notation gs := (gs ro vn). Notation cst := (cst mn zn moff zsz). Notation agree := (agree vn).
Notation cval := (cval moff zsz true).
Let NK : names_ok vn mn zn moff zsz := st_names _ _ _ _ _ _ _ _ SET.
Let HN : 32 <= N := st_bits _ _ _ _ _ _ _ _ SET.
Definition putw (e : xe) : list item := match e with XVar x => chs (vn x) | _ => chs [40] ++ rv e true 0 ++ chs [41] end.

(* one of the three: the state afterwards is as before *)
Lemma put_one e sp G0 s g v s' R W : okx e = true -> noeff e = true -> byte v = true ->
  cst g -> gs sp G0 s g -> cval e s = Some (v, s', R, W) ->
  exists g1, (forall l, s' l = s l) /\ cst g1 /\ gs sp G0 s g1 /\
    ari N (putw e ++ chs suf1) g (Z.quot v 64) g1 /\ ari N (putw e ++ chs suf2) g (Z.rem (Z.quot v 8) 8) g1 /\ ari N (putw e ++ chs suf3) g (Z.rem v 8) g1.
Proof.
  intros Ok Ne B C G E. apply cval_inv in E as [E (H & V & Eh)].
  pose proof (proj1 (noeff_w moff zsz e Ne) s _ _ _ _ E) as ->.
  pose proof (same_r moff zsz e s v s' R [] E) as S. assert (Ss : forall l, s' l = s l) by (intros l; apply S; intros []).
  assert (K : exists ch g1 ts t f g3, exp N (putw e) g ch g1 /\ prim N ch ts t f /\ f g1 = Some (v, g3) /\ off vn [] g g3).
  { destruct (Ph_all N HN vn mn zn moff zsz NK e) as (A & _).
    pose proof (A 0 s v s' R [] H V g Ok E Eh C (gs_agree ro vn sp G0 s g H G)) as (g1 & f & (ch & X & Sy) & O & In & M).
    destruct (full_sem vn mn zn moff zsz NK R [] V s s' v g g1 f C (gs_agree ro vn sp G0 s g R G) O M In) as (g3 & Ef & A3 & O3).
    assert (P : exists ch g1 ts t f g3, exp N (chs [40] ++ rv e true 0 ++ chs [41]) g ch g1 /\ prim N ch ts t f /\ f g1 = Some (v, g3) /\ off vn [] g g3).
    { destruct (prim_par N _ _ _ _ Sy (plev_le e 0 Ok)) as (ts & t & P). exists ([40] ++ ch ++ [41]), g1, ts, t, f, g3.
      split; [|auto]. eapply exp_app; [apply exp_chs|]. eapply exp_app; [exact X|apply exp_chs]. }
    destruct e; try exact P. exists (vn x), g, [TName (vn x)], (AVar (vn x)), (fun s => Some (s (vn x), s)), g.
    split; [apply exp_chs|]. split; [apply prim_var; apply (nk_vi _ _ _ _ _ NK)|]. split; [|apply off_refl].
    rewrite cev_eq in E. inversion E; subst. destruct G as (G & _). specialize (G (LV x)). cbn [nm] in G. rewrite G. reflexivity. }
  destruct K as (ch & g1 & ts & t & f & g3 & X & P & Ef & O). exists g3.
  split; [exact Ss|]. split; [eapply off_cst; eauto|].
  split; [refine (gs_after N sev ro vn mn zn moff zsz SET _ _ _ _ [] _ _ G (same_refl _ _) _ O); intros l []|].
  eapply put_ari; eauto.
Qed.
Lemma put_step e sp G0 s g v s' R W : okx e = true -> noeff e = true -> byte v = true ->
  gs sp G0 s g -> cval e s = Some (v, s', R, W) ->
  exists a b c g1, sev [Ar (putw e ++ chs suf1); Ar (putw e ++ chs suf2); Ar (putw e ++ chs suf3)] (overlay g) = Some ([a; b; c], g1) /\
    numeral_value 8 [a; b; c] = Some v /\ gs sp G0 s' g1.
Proof.
  intros Ok Ne B G E. pose proof (gs_over N sev ro vn mn zn moff zsz SET _ _ _ _ G) as Go.
  pose proof (over_cst N sev ro vn mn zn moff zsz SET g) as Co.
  destruct (put_one e sp G0 s _ v s' R W Ok Ne B Co Go E) as (g1 & Ss & C1 & G1 & X1 & _ & _).
  destruct (put_one e sp G0 s _ v s' R W Ok Ne B C1 G1 E) as (g2 & _ & C2 & G2 & _ & X2 & _).
  destruct (put_one e sp G0 s _ v s' R W Ok Ne B C2 G2 E) as (g3 & _ & C3 & G3 & _ & _ & X3).
  destruct (digits v B) as (a & b & c & Ed & En). exists a, b, c, g3. split; [|split; [exact En|]].
  - apply (st_shell _ _ _ _ _ _ _ _ SET). rewrite <- Ed, <- (app_nil_r (decimal (Z.rem v 8))).
    eapply e_ar; [exact X1|]. eapply e_ar; [exact X2|]. eapply e_ar; [exact X3|]. apply e_nil.
  - eapply gs_ext; eauto.
Qed.
End Sim.
