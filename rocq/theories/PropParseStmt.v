(* C49: declarations, statements and whole files are parsed to the tree the C grammar assigns. *)
From Coq Require Import ZArith List Bool Lia.
From Verif Require Import Base Ast EvalConst Enum Parse Grammar PropParse ParseStmt GrammarStmt.
Import ListNotations.
Open Scope Z_scope.

Ltac tst :=
  cbn [tk tl fst snd app];
  repeat match goal with
  | |- context [?a =? ?b] =>
      let c := eval vm_compute in (a =? b) in
      match c with true => change (a =? b) with true | false => change (a =? b) with false end
  | |- context [existsb (Z.eqb ?a) ?b] =>
      let c := eval vm_compute in (existsb (Z.eqb a) b) in
      match c with true => change (existsb (Z.eqb a) b) with true | false => change (existsb (Z.eqb a) b) with false end
  | |- context [is_type_starter ?a] =>
      let c := eval vm_compute in (is_type_starter a) in
      match c with true => change (is_type_starter a) with true | false => change (is_type_starter a) with false end
  end; cbn [orb andb negb]; cbv iota.
Ltac fsolve := first [assumption | apply followb_ok; reflexivity | eapply follow_le; [|eassumption]; lia].
Ltac incl_t := let x := fresh in let H := fresh in intros x H; repeat (rewrite in_app_iff in * || cbn [In app] in *); tauto.
Ltac flt :=
  match goal with
  | |- fl _ ?v ?v => apply fl_refl
  | F : fl ?a ?v1 ?w |- fl ?t ?v ?w => apply (fl_trans t v v1 w); [clear F; flt|apply (fl_mono a t); [incl_t|exact F]]
  end.
Ltac app_norm := repeat (rewrite <- ?app_assoc; cbn [app]).

Section Mono.
Variables (sh : bool) (join : Z -> Z -> Z).
Notation SB := (SB sh).
Notation PS := (PS sh join).

Lemma abind_mono x y k1 k2 r : (forall r, x = Some r -> y = Some r) ->
  (forall e s r, k1 e s = Some r -> k2 e s = Some r) -> abind x k1 = Some r -> abind y k2 = Some r.
Proof. intros H K. destruct x as [[[e|e sc|l|l] s]|]; cbn [abind]; try discriminate. rewrite (H _ eq_refl). apply K. Qed.
Lemma spbind_mono x y k1 k2 r : (forall r, x = Some r -> y = Some r) ->
  (forall e sc s r, k1 e sc s = Some r -> k2 e sc s = Some r) -> spbind x k1 = Some r -> spbind y k2 = Some r.
Proof. intros H K. destruct x as [[[e|e sc|l|l] s]|]; cbn [spbind]; try discriminate. rewrite (H _ eq_refl). apply K. Qed.
Lemma libind_mono x y k1 k2 r : (forall r, x = Some r -> y = Some r) ->
  (forall e s r, k1 e s = Some r -> k2 e s = Some r) -> libind x k1 = Some r -> libind y k2 = Some r.
Proof. intros H K. destruct x as [[[e|e sc|l|l] s]|]; cbn [libind]; try discriminate. rewrite (H _ eq_refl). apply K. Qed.
Lemma enbind_mono x y k1 k2 r : (forall r, x = Some r -> y = Some r) ->
  (forall e s r, k1 e s = Some r -> k2 e s = Some r) -> enbind x k1 = Some r -> enbind y k2 = Some r.
Proof. intros H K. destruct x as [[[e|e sc|l|l] s]|]; cbn [enbind]; try discriminate. rewrite (H _ eq_refl). apply K. Qed.
Lemma exbind_mono td x y k1 k2 r : (forall r, x = Some r -> y = Some r) ->
  (forall e s r, k1 e s = Some r -> k2 e s = Some r) -> exbind td x k1 = Some r -> exbind td y k2 = Some r.
Proof. intros H K. destruct x as [[[e| |] [ts v]]|]; cbn [exbind]; try discriminate. rewrite (H _ eq_refl). apply K. Qed.
Lemma debind_mono td x y k1 k2 r : (forall r, x = Some r -> y = Some r) ->
  (forall n ls s r, k1 n ls s = Some r -> k2 n ls s = Some r) -> debind td x k1 = Some r -> debind td y k2 = Some r.
Proof. intros H K. destruct x as [[[| |] [ts v]]|]; cbn [debind]; try discriminate. rewrite (H _ eq_refl). apply K. Qed.
Lemma sexpect_mono t s k1 k2 r : (forall s r, k1 s = Some r -> k2 s = Some r) -> sexpect t s k1 = Some r -> sexpect t s k2 = Some r.
Proof. intros K. destruct s as [[td ts] v]. cbn [sexpect]. destruct (_ =? _); [apply K|discriminate]. Qed.

Ltac mono H1 H2 :=
  cbv beta;
  lazymatch goal with
  | |- None = _ -> _ => discriminate
  | |- abind _ _ = _ -> _ => apply abind_mono; [intros ?; mono H1 H2|intros ? ? ?; mono H1 H2]
  | |- spbind _ _ = _ -> _ => apply spbind_mono; [intros ?; mono H1 H2|intros ? ? ? ?; mono H1 H2]
  | |- libind _ _ = _ -> _ => apply libind_mono; [intros ?; mono H1 H2|intros ? ? ?; mono H1 H2]
  | |- enbind _ _ = _ -> _ => apply enbind_mono; [intros ?; mono H1 H2|intros ? ? ?; mono H1 H2]
  | |- exbind _ _ _ = _ -> _ => apply exbind_mono; [intros ?; mono H1 H2|intros ? ? ?; mono H1 H2]
  | |- debind _ _ _ = _ -> _ => apply debind_mono; [intros ?; mono H1 H2|intros ? ? ? ?; mono H1 H2]
  | |- sexpect _ _ _ = _ -> _ => apply sexpect_mono; intros ? ?; mono H1 H2
  | |- (match ?x with _ => _ end) = _ -> _ => destruct x; mono H1 H2
  | |- ?a -> ?a => exact (fun x => x)
  | |- _ -> _ => first [apply H1 | apply H2]
  end.

Lemma SB_mono e1 e2 r1 r2 : (forall td n ts v r, e1 td n ts v = Some r -> e2 td n ts v = Some r) ->
  (forall n s r, r1 n s = Some r -> r2 n s = Some r) ->
  forall n s r, SB e1 r1 n s = Some r -> SB e2 r2 n s = Some r.
Proof.
  intros H1 H2 n [[td ts] v] r. destruct n; cbn [ParseStmt.SB]; cbv zeta; mono H1 H2.
Qed.
Lemma PS_mono f : forall n s r, PS f n s = Some r -> PS (S f) n s = Some r.
Proof.
  induction f as [|f IH]; intros n s r H; [discriminate|].
  cbn [ParseStmt.PS] in H |- *. eapply SB_mono; [| |exact H]; [|exact IH].
  intros. eapply P_mono; eassumption.
Qed.
Lemma PS_le f g n s r : (f <= g)%nat -> PS f n s = Some r -> PS g n s = Some r.
Proof. induction 1; [auto|]. intros H1. apply PS_mono. auto. Qed.

(* acceptance with enough fuel *)
Definition SParses (n : snt) (s : sst) (r : sres * sst) : Prop := exists f, PS f n s = Some r.
Definition evs (n : snt) (s : sst) (r : sres * sst) : Prop := exists f0, forall f, (f0 <= f)%nat -> PS f n s = Some r.
Lemma evs_iff n s r : evs n s r <-> SParses n s r.
Proof.
  split; intros [f H]; exists f; [apply H; lia|]. intros g Hg. eapply PS_le; eassumption.
Qed.
Lemma evs_step n s r : (exists f0, forall f, (f0 <= f)%nat -> SB (fun td => P sh td join f) (PS f) n s = Some r) -> evs n s r.
Proof. intros [f0 H]. exists (S f0). intros [|f] Hf; [lia|]. cbn [ParseStmt.PS]. apply H. lia. Qed.
Theorem c49_deterministic : forall n s r1 r2, SParses n s r1 -> SParses n s r2 -> r1 = r2.
Proof.
  intros n s r1 r2 [f1 E1] [f2 E2].
  apply (PS_le _ (Nat.max f1 f2)) in E1; [|lia]. apply (PS_le _ (Nat.max f1 f2)) in E2; [|lia]. congruence.
Qed.
End Mono.
Ltac sstart f0 := apply evs_step; exists f0; intros f Hf; cbn [ParseStmt.SB].

(* ---- first tokens ---- *)
Definition expr_firsts : list Z :=
  [IDENTIFIER; CHARACTER; INTEGER; INTEGER_HEX; INTEGER_OCT; INTEGER_L; INTEGER_LL; INTEGER_U; INTEGER_UL; INTEGER_ULL; STRING;
   LPAR; PLUS_PLUS; MINUS_MINUS; AMP; STAR; PLUS; MINUS; TILDE; EXCL; SIZEOF_KW].
Section Firsts.
Variables (sh : bool) (td : tdm) (join : Z -> Z -> Z).
Lemma first_app (l : list Z) a b : (a <> [] /\ In (tk a) l) -> a ++ b <> [] /\ In (tk (a ++ b)) l.
Proof. intros [H1 H2]. rewrite tk_app by assumption. split; [|assumption]. destruct a; [congruence|discriminate]. Qed.
Lemma first_cons (l : list Z) t a (ts : list token) : existsb (Z.eqb t) l = true -> (t, a) :: ts <> [] /\ In (tk ((t, a) :: ts)) l.
Proof. intros H. split; [discriminate|]. cbn [tk]. apply existsb_In_Z. assumption. Qed.
Lemma expr_firsts_ok g ts o : G sh td join g ts o -> expr_nt g -> ts <> [] /\ In (tk ts) expr_firsts.
Proof.
  induction 1; cbn [expr_nt] in *; intros HX; try contradiction; try (apply first_app; auto; fail); auto;
    try (apply first_cons; reflexivity).
  - apply leaf_cases in H. cbn [In] in H. repeat (destruct H as [<-|H]; [apply first_cons; reflexivity|]). contradiction.
  - cbn [In] in H. repeat (destruct H as [<-|H]; [apply first_cons; reflexivity|]). contradiction.
Qed.
Notation H := (H sh td join).
Definition stmt_firsts : list Z :=
  [SEMI; LBRACE; IF_KW; SWITCH_KW; CASE_KW; DEFAULT_KW; WHILE_KW; DO_KW; FOR_KW; GOTO_KW; CONTINUE_KW; BREAK_KW; RETURN_KW] ++ expr_firsts.
Definition hfirst (g : hnt) (ts : list token) (o : hobj) : Prop :=
  match g with
  | HStmt _ => ts <> [] /\ In (tk ts) stmt_firsts
  | HOpt => ts = [] \/ In (tk ts) expr_firsts
  | HSpecs => match o with QI cs _ _ => cs <> [] -> ts <> [] /\ is_type_starter (tk ts) = true | _ => True end
  | HSpec | HCore | HDecl | HFun | HTypedef => ts <> [] /\ is_type_starter (tk ts) = true
  | HItems => ts = [] \/ is_type_starter (tk ts) = true \/ In (tk ts) stmt_firsts
  | HInit => ts <> [] /\ In (tk ts) (LBRACE :: expr_firsts)
  | HTail _ _ => ts = [] \/ tk ts = COMMA
  | _ => True
  end.
Lemma hfirst_ok g ts o : H g ts o -> hfirst g ts o.
Proof.
  assert (A : forall a b : list token, a <> [] /\ is_type_starter (tk a) = true -> a ++ b <> [] /\ is_type_starter (tk (a ++ b)) = true).
  { intros a b [H1 H2]. rewrite tk_app by assumption. split; [|assumption]. destruct a; [congruence|discriminate]. }
  induction 1; cbn [hfirst] in *; auto; try (apply A; assumption); try (apply first_cons; reflexivity).
  - intros _. split; [discriminate|]. cbn [tk]. destruct H as [-> | ->]; reflexivity.
  - intros _. split; [discriminate|]. cbn [tk]. unfold storage_classes in H. cbn [In] in H.
    repeat (destruct H as [<-|H]; [reflexivity|]). contradiction.
  - intros _. split; [discriminate|reflexivity].
  - apply IHH. discriminate.
  - destruct (core_starter sh td _ _ H). auto.
  - split; [discriminate|]. cbn [tk]. destruct H as [-> | ->]; reflexivity.
  - split; [discriminate|reflexivity].
  - destruct (expr_firsts_ok _ _ _ H I) as [H1 H2]. split; [assumption|right; assumption].
  - right. destruct (A ts ts2 IHH1). left. assumption.
  - right. right. destruct IHH1. rewrite tk_app; assumption.
  - destruct (expr_firsts_ok _ _ _ H I) as [H1 H2]. right. assumption.
  - destruct ts as [|t ts]; [apply first_cons; reflexivity|]. apply first_app. split; [discriminate|].
    destruct IHH as [E|E]; [discriminate|]. unfold stmt_firsts. apply in_or_app. right. assumption.
Qed.
End Firsts.

Lemma sexpect_ok td t a ts v k : sexpect t (td, (t, a) :: ts, v) k = k (td, ts, v).
Proof. cbn [sexpect tk tl]. rewrite Z.eqb_refl. reflexivity. Qed.
Ltac optrw E1 f :=
  match goal with |- context [exbind _ (P _ _ _ f NComma _ _) ?k] =>
    let X := fresh "X" in assert (X := E1 f k ltac:(lia)); cbv beta in X; rewrite X; clear X end.

(* ---- the induction ---- *)
Section Complete.
Variables (sh : bool) (td : tdm) (join : Z -> Z -> Z).
Notation G := (G sh td join).
Notation H := (H sh td join).
Notation evs := (evs sh join).
Notation PS := (PS sh join).

Definition HM (g : hnt) (ts : list token) (o : hobj) : Prop :=
  match g, o with
  | HSpecs, QI cs ss qs => forall ty q sc ad rest v, (cs = [] \/ ty = None /\ (length cs <= 1)%nat) ->
      (ss = [] \/ sc = 0 /\ (length ss <= 1)%nat) -> (ad = true \/ ~ In TYPEDEF_KW ss) -> nospec (tk rest) ->
      exists v', forall r,
        evs (SSpec (match cs with [] => ty | b :: _ => Some b end) (fold_left (fun q t => Z.lor q (MK_TYPE_SPECIFIER t)) qs q) (hd sc ss) ad) (td, rest, v') r ->
        evs (SSpec ty q sc ad) (td, ts ++ rest, v) r
  | HSpec, QS b sc => forall ad rest v, (ad = true \/ sc <> TYPEDEF_KW) -> is_type_starter (tk rest) = false -> tk rest <> LBRACE ->
      exists v', snd v' = sc /\ evs (SSpec None 0 0 ad) (td, ts ++ rest, v) (XS b sc, (td, rest, v'))
  | HCore, QE b => forall q sc ad rest v, nospec (tk rest) ->
      exists v', forall r, evs (SSpec (Some b) q sc ad) (td, rest, v') r -> evs (SSpec None q sc ad) (td, ts ++ rest, v) r
  | HMembers, QL l => forall acc a rest v, exists v', evs (SBody acc) (td, ts ++ (RBRACE, a) :: rest, v) (XL (acc ++ l), (td, rest, v'))
  | HMDecls b, QL l => forall acc a rest v, exists v', evs (SMember b acc) (td, ts ++ (SEMI, a) :: rest, v) (XL (acc ++ l), (td, (SEMI, a) :: rest, v'))
  | HEnums, QN l => forall acc a rest v, exists v', evs (SEnum acc) (td, ts ++ (RBRACE, a) :: rest, v) (XE (acc ++ l), (td, rest, v'))
  | HInit, QE e => forall rest v, follow 12 rest -> exists v', fl ts v v' /\ evs SInit (td, ts ++ rest, v) (XA e, (td, rest, v'))
  | HInits, QL l => forall acc a rest v, exists v', fl ts v v' /\ evs (SInits acc) (td, ts ++ (RBRACE, a) :: rest, v) (XL (acc ++ l), (td, rest, v'))
  | HIDeclr tdf b, QE d => forall rest v, tk rest = COMMA \/ tk rest = SEMI ->
      exists v', fl ts v v' /\ evs (SDInit tdf b) (td, ts ++ rest, v) (XA d, (td, rest, v'))
  | HTail tdf b, QL l => forall acc a rest v,
      exists v', fl ts v v' /\ evs (SDeclrs tdf b acc) (td, ts ++ (SEMI, a) :: rest, v) (XL (acc ++ l), (td, (SEMI, a) :: rest, v'))
  | HDecl, QE d => forall local rest v, exists v', evs (SDecl local) (td, ts ++ rest, v) (XA d, (td, rest, v'))
  | HFun, QE d => forall rest v, exists v', evs (SDecl false) (td, ts ++ rest, v) (XA d, (td, rest, v'))
  | HTypedef, QL l => forall local td' rest v, add_typedefs sh td l = Some td' ->
      exists v', evs (SDecl local) (td, ts ++ rest, v) (XA (new_ast1 TYPEDEF_KW (list_node l)), (td', map (cls td') rest, v'))
  | HStmt o, QE d => forall rest v, (o = true -> tk rest <> ELSE_KW) -> exists v', evs SStmt (td, ts ++ rest, v) (XA d, (td, rest, v'))
  | HOpt, QE e => ts = [] /\ e = Raw 0 \/ G GExpr ts (OE e)
  | HItems, QL l => forall acc a rest v, exists v', evs (SItems acc) (td, ts ++ (RBRACE, a) :: rest, v) (XL (acc ++ l), (td, rest, v'))
  | _, _ => True
  end.

(* the specifiers without a type leave the next token as it is *)
Lemma specs_nospec ts ss qs rest : H HSpecs ts (QI [] ss qs) -> nospec (tk rest) -> nospec (tk (ts ++ rest)).
Proof.
  intros K Hr. inversion K; subst; cbn [app tk]; auto.
  - match goal with X : _ \/ _ |- _ => destruct X as [-> | ->] end; unfold nospec; cbn; intuition discriminate.
  - match goal with X : In _ _ |- _ => rename X into Ht end. unfold nospec. unfold storage_classes in Ht. cbn [In] in Ht. repeat (destruct Ht as [<-|Ht]; [cbn; intuition discriminate|]). contradiction.
  - unfold nospec. cbn; intuition discriminate.
Qed.

Lemma spec_stop b q sc ad rest v : is_type_starter (tk rest) = false ->
  (q <> 0 -> get_op b <> LBRACK /\ get_op b <> LPAR) ->
  evs (SSpec (Some b) q sc ad) (td, rest, v) (XS (qualify q b) sc, (td, rest, (fst v, sc))).
Proof.
  intros Hr Hb. sstart 0%nat.
  assert (E : (if q =? 0 then Some (XS b sc, (td, rest, (fst v, sc)))
               else if (get_op b =? LBRACK) || (get_op b =? LPAR) then None
               else Some (XS (or_slot0 b q) sc, (td, rest, (fst v, sc)))) = Some (XS (qualify q b) sc, (td, rest, (fst v, sc)))).
  { unfold qualify. destruct (Z.eqb_spec q 0) as [Eq|Eq]; [reflexivity|]. destruct (Hb Eq) as [B1 B2].
    rewrite !eqb_ne by assumption. reflexivity. }
  destruct rest as [|[t x] rest]; [exact E|]. unfold is_type_starter in Hr. cbn [tk existsb] in Hr.
  repeat (apply orb_false_iff in Hr; let K := fresh "K" in destruct Hr as [K Hr]).
  cbn [existsb]. rewrite ?K, ?K0, ?K1, ?K2, ?K3, ?K4, ?K5, ?K6, ?K7, ?K8, ?K9, ?K10, ?K11, ?K12, ?K13, ?K14, ?K15, ?K16, ?K17, ?K18, ?K19.
  exact E.
Qed.

(* a type specifier of Parse.v *)
Lemma spec_core c b q sc ad rest v r : core sh td c b -> nospec (tk rest) ->
  evs (SSpec (Some b) q sc ad) (td, rest, v) r -> evs (SSpec None q sc ad) (td, c ++ rest, v) r.
Proof.
  intros Hc Hr [f1 E1]. sstart f1. destruct Hc as [ts b K|x b K|k a t x Hk Ht].
  - destruct (core_tspec sh ts b rest K Hr) as [E Hin].
    destruct ts as [|[t x] ts]; [cbn in Hin; intuition discriminate|]. cbn [tk] in Hin. cbn [app] in E |- *.
    rewrite E. cbn [In] in Hin. repeat (destruct Hin as [<-|Hin]; [tst; apply E1; assumption|]). contradiction.
  - cbn [app]. tst. rewrite K. apply E1. assumption.
  - cbn [app]. assert (Hb : (tk rest =? LBRACE) = false) by (apply eqb_ne; intros E; apply Hr; rewrite E; cbn; tauto).
    cbn [In] in Hk. cbn [tag_name]. destruct Ht as [-> | ->]; repeat (destruct Hk as [<-|Hk]; [tst; rewrite Hb; apply E1; assumption|]); contradiction.
Qed.

Lemma tag_ok nts n b r : tag nts n -> tag_name (nts ++ (LBRACE, b) :: r) = (n, (LBRACE, b) :: r).
Proof. destruct 1 as [|t x Ht]; cbn [app tag_name]; [tst; reflexivity|]. destruct Ht as [-> | ->]; tst; reflexivity. Qed.

Lemma expr_use ts e rest v : G GExpr ts (OE e) -> follow 13 rest -> exists v', fl ts v v' /\ ev sh td join NComma (ts ++ rest) v (RE e, (rest, v')).
Proof. intros K F. exact (complete sh td join _ _ _ K rest v F). Qed.
Lemma assign_use ts e rest v : G GAssign ts (OE e) -> follow 12 rest -> exists v', fl ts v v' /\ ev sh td join NAssign (ts ++ rest) v (RE e, (rest, v')).
Proof. intros K F. exact (complete sh td join _ _ _ K rest v F). Qed.
Lemma paren_use ts e b rest v : G GExpr ts (OE e) -> exists v', ev sh td join NParen (ts ++ (RPAR, b) :: rest) v (RE (new_ast1 PARENS e), (rest, v')).
Proof.
  intros K. destruct (expr_use ts e ((RPAR, b) :: rest) v K ltac:(fsolve)) as (v' & _ & [f1 E1]). exists v'.
  apply ev_step. exists f1. intros f Hf. cbn [PB]. rewrite E1 by assumption. cbn [ebind]. rewrite expect_ok by discriminate. reflexivity.
Qed.
Lemma declr_use ts n ls b rest v : G (GDeclr false) ts (OD n ls) -> okty ls b -> ~ In (tk rest) [IDENTIFIER; STAR; LPAR; LBRACK] -> is_type_starter (tk rest) = false ->
  exists v', fl ts v v' /\ ev sh td join (NDeclr false [] b) (ts ++ rest) v (RD n ls (length ls), (rest, v')).
Proof.
  intros K Ho H1 H2. destruct (complete sh td join _ _ _ K [] b rest v) as (v' & F & E); [constructor|rewrite app_nil_r; assumption|split; assumption|].
  rewrite app_nil_r in E. eauto.
Qed.
Lemma expr_not ts e rest l : G GExpr ts (OE e) -> (forall t, In t expr_firsts -> existsb (Z.eqb t) l = false) -> existsb (Z.eqb (tk (ts ++ rest))) l = false.
Proof. intros K A. destruct (expr_firsts_ok _ _ _ _ _ _ K I) as [K1 K2]. rewrite tk_app by assumption. apply A. assumption. Qed.
Lemma named_ok ps : Forall param_named ps -> named_params (list_node ps) = true.
Proof.
  induction 1 as [|p ps Hp _ IH]; [reflexivity|]. cbn [list_node new_ast2 named_params]. rewrite IH.
  unfold param_named in Hp. destruct (child 0 p); [contradiction|reflexivity].
Qed.
Lemma declr_ne ts n ls : G (GDeclr false) ts (OD n ls) -> ts <> [].
Proof.
  intros K. assert (A : forall g ts o, G g ts o -> g = GDeclr false \/ g = GDirect false -> ts <> []).
  { clear. induction 1; intros [HX|HX]; try discriminate HX; try discriminate; try (apply IHG; auto; injection HX as ->; auto; fail).
    all: try (destruct ts; discriminate). }
  eapply A; [exact K|auto].
Qed.
Lemma ideclr_first tdf b ts d r : H (HIDeclr tdf b) ts (QE d) -> is_type_starter (tk (ts ++ r)) = false /\ tk (ts ++ r) <> LBRACE /\ tk (ts ++ r) <> SEMI.
Proof.
  intros K. inversion K; subst.
  all: match goal with X : G (GDeclr false) ?t _ |- _ => pose proof (declr_first _ _ _ _ _ _ X (ex_intro _ false (or_introl eq_refl))) as DF; pose proof (declr_ne _ _ _ X) as DN end.
  all: destruct DF as [DF|DF]; [contradiction|]; rewrite <- ?app_assoc, tk_app by assumption; cbn [In] in DF;
       repeat (destruct DF as [<-|DF]; [repeat split; discriminate|]); contradiction.
Qed.
Lemma stmt_not_starter t : In t stmt_firsts -> is_type_starter t = false.
Proof. unfold stmt_firsts, expr_firsts. cbn [app In]. intros K. repeat (destruct K as [<-|K]; [reflexivity|]). contradiction. Qed.
Lemma items_else ts l a rest : H HItems ts (QL l) -> tk (ts ++ (RBRACE, a) :: rest) <> ELSE_KW.
Proof.
  intros K. destruct (hfirst_ok _ _ _ _ _ _ K) as [-> |[E|E]]; [discriminate| |]; (destruct ts as [|t ts]; [discriminate|]); cbn [app]; intros X.
  - change (tk (t :: ts)) with (tk (t :: ts ++ (RBRACE, a) :: rest)) in E. rewrite X in E. discriminate.
  - change (tk (t :: ts)) with (tk (t :: ts ++ (RBRACE, a) :: rest)) in E. rewrite X in E. cbn in E. intuition discriminate.
Qed.
Lemma id_bin x : G (GBin 10) [(IDENTIFIER, x)] (OE (new_ast0 IDENTIFIER x)).
Proof. do 10 apply g_binS. apply g_bin0, g_cast0, g_unary, g_post, g_leaf. reflexivity. Qed.
Lemma tagged_ok b : tagged b -> is_tag (get_op b) = true.
Proof. unfold tagged. cbn [In]. intros K. repeat (destruct K as [<-|K]; [reflexivity|]). contradiction. Qed.
Lemma untagged t : is_tag t = true -> In t [STRUCT_KW; UNION_KW; ENUM_KW].
Proof. unfold is_tag. intros K. repeat (apply orb_prop in K; destruct K as [K|K]); apply Z.eqb_eq in K; subst; cbn; tauto. Qed.
Lemma adds_ok ds t1 t2 : typedefs_add sh t1 ds t2 -> add_typedefs sh t1 ds = Some t2.
Proof.
  induction 1 as [t1|t1 x t ds t2 R _ IH]; [reflexivity|]. cbn [add_typedefs]. unfold add_typedef.
  change (child 0 (new_ast3 DECL (new_ast0 IDENTIFIER x) t (Raw 0))) with (new_ast0 IDENTIFIER x).
  change (child 1 (new_ast3 DECL (new_ast0 IDENTIFIER x) t (Raw 0))) with t. change (get_val (new_ast0 IDENTIFIER x)) with x.
  destruct (sh && is_tag (get_op t)) eqn:E; cbn [andb]; [|exact IH].
  apply andb_prop in E. destruct E as [E1 E2]. apply untagged in E2. destruct (R E1 E2) as [m Em].
  assert (C : child 1 t = new_ast0 IDENTIFIER x) by (rewrite Em; reflexivity).
  rewrite C. unfold new_ast0 at 1. cbv iota. change (get_val (new_ast0 IDENTIFIER x)) with x. rewrite Z.eqb_refl. exact IH.
Qed.
Lemma cls_cls td1 td2 t : cls td2 (cls td1 t) = cls td2 t.
Proof.
  unfold cls. destruct ((fst t =? IDENTIFIER) || (fst t =? TYPE)) eqn:E; [|rewrite E; reflexivity].
  destruct (td1 (snd t)); cbn [fst snd]; tst; reflexivity.
Qed.

Lemma opt_run e ts t a rest v f0 : (ts = [] /\ e = Raw 0 \/ G GExpr ts (OE e)) -> In t [SEMI; RPAR] -> exists v' f1, (f0 <= f1)%nat /\ forall f k, (f1 <= f)%nat ->
  (if existsb (Z.eqb (tk (ts ++ (t, a) :: rest))) [COLON; SEMI; RPAR] then k (Raw 0) (td, ts ++ (t, a) :: rest, v)
   else exbind td (P sh td join f NComma (ts ++ (t, a) :: rest) v) k) = k e (td, (t, a) :: rest, v').
Proof.
  intros [[-> ->]|K] Ht.
  - exists v, f0. split; [lia|]. intros f k _. cbn [app tk]. cbn [In] in Ht. repeat (destruct Ht as [<-|Ht]; [tst; reflexivity|]). contradiction.
  - destruct (expr_use ts e ((t, a) :: rest) v K) as (v' & _ & [f1 E1]).
    { cbn [In] in Ht. repeat (destruct Ht as [<-|Ht]; [fsolve|]). contradiction. }
    exists v', (Nat.max f0 f1). split; [lia|]. intros f k Hf. rewrite E1 by lia.
    rewrite (expr_not ts e _ _ K); [reflexivity|]. intros x Hx. unfold expr_firsts in Hx. cbn [In] in Hx.
    repeat (destruct Hx as [<-|Hx]; [reflexivity|]). contradiction.
Qed.

Lemma hcomplete g ts o : H g ts o -> HM g ts o.
Proof.
  induction 1; cbn [HM] in *; auto.
  - (* no specifier *) intros ty q sc ad rest v _ _ _ _. exists v. auto.
  - (* qualifier *) intros ty q sc ad rest v A B C D. cbn [app fold_left].
    destruct (IHH ty (Z.lor q (MK_TYPE_SPECIFIER t)) sc ad rest v A B C D) as (v' & K). exists v'. intros r E.
    destruct (K r E) as [f1 E1]. sstart f1. destruct H as [-> | ->]; tst; apply E1; assumption.
  - (* storage class *) intros ty q sc ad rest v A B C D. cbn [app hd].
    destruct B as [B|[-> B]]; [discriminate|]. assert (ss = []) as -> by (destruct ss; [reflexivity|cbn in B; lia]).
    destruct (IHH ty q t ad rest v A) as (v' & K); [auto| |assumption|].
    { right. intros []. }
    exists v'. intros r E. destruct (K r E) as [f1 E1]. sstart f1.
    unfold storage_classes in H. rewrite (exb_true t) by exact H. change (0 =? 0) with true. cbn [negb].
    destruct (Z.eqb_spec t TYPEDEF_KW) as [->|Ht]; [|apply E1; assumption].
    destruct C as [->|C]; [apply E1; assumption|]. exfalso. apply C. left. reflexivity.
  - (* inline *) intros ty q sc ad rest v A B C D. cbn [app].
    destruct (IHH ty q sc ad rest v A B C D) as (v' & K). exists v'. intros r E.
    destruct (K r E) as [f1 E1]. sstart f1. tst. apply E1; assumption.
  - (* type *) intros ty q sc ad rest v A B C D. destruct A as [A|[-> A]]; [discriminate|].
    assert (cs = []) as -> by (destruct cs; [reflexivity|cbn in A; lia]). rewrite <- app_assoc.
    destruct (IHH1 q sc ad (ts ++ rest) v) as (v1 & K1); [eapply specs_nospec; eassumption|].
    destruct (IHH2 (Some b) q sc ad rest v1 (or_introl eq_refl) B C D) as (v2 & K2).
    exists v2. intros r E. apply K1, K2, E.
  - (* specifiers *) intros ad rest v A B C.
    destruct (IHH None 0 0 ad rest v) as (v' & K).
    + right. cbn; auto.
    + destruct ss; [left; reflexivity|right; auto].
    + destruct A as [A|A]; [left; assumption|right]. destruct ss as [|s [|]]; cbn [length hd] in *; [intros []| |lia].
      intros [E|[]]. congruence.
    + apply starter_nospec; assumption.
    + exists (fst v', hd 0 ss). split; [reflexivity|]. apply K. apply spec_stop; [assumption|].
      intros Hq. apply H1. intros ->. apply Hq. reflexivity.
  - (* basic type, typedef name or tag *) intros q sc ad rest v Hr. exists v. intros r. apply spec_core; assumption.
  - (* struct or union *) intros q sc ad rest v Hr. app_norm.
    destruct (IHH [] c rest v) as (v1 & [f1 E1]). exists v1. intros r [f2 E2]. sstart (Nat.max f1 f2).
    rewrite (tag_ok nts n b _ H0). destruct H as [-> | ->]; tst; rewrite E1 by lia; cbn [libind app]; apply E2; lia.
  - (* enum *) intros q sc ad rest v Hr. app_norm.
    destruct (IHH [] c rest v) as (v1 & [f1 E1]). exists v1. intros r [f2 E2]. sstart (Nat.max f1 f2). tst.
    rewrite (tag_ok nts n b _ H). tst. rewrite E1 by lia. cbn [enbind app]. rewrite H1. apply E2; lia.
  - (* no member *) intros acc a rest v. exists v. cbn [app]. sstart 0%nat. tst. rewrite app_nil_r. reflexivity.
  - (* anonymous member *) intros acc a0 rest v. app_norm.
    destruct (hfirst_ok _ _ _ _ _ _ H) as [N1 N2]. cbn [hfirst] in *.
    destruct (IHH1 false ((SEMI, a) :: ts2 ++ (RBRACE, a0) :: rest) v) as (v1 & _ & [f1 E1]); [right; discriminate|reflexivity|discriminate|].
    destruct (IHH2 (acc ++ [new_ast3 DECL (Raw 0) b (Raw 0)]) a0 rest v1) as (v2 & [f2 E2]).
    exists v2. sstart (Nat.max f1 f2). rewrite tk_app by assumption. rewrite N2.
    rewrite (eqb_ne (tk ts) RBRACE) by (intros E; rewrite E in N2; discriminate). cbn [negb].
    rewrite E1 by lia. cbn [spbind]. tst. rewrite (tagged_ok _ H0). rewrite E2 by lia. rewrite <- app_assoc. reflexivity.
  - (* members *) intros acc a0 rest v. app_norm.
    destruct (hfirst_ok _ _ _ _ _ _ H) as [N1 N2].
    assert (DF : is_type_starter (tk (ts1 ++ (SEMI, a) :: ts2 ++ (RBRACE, a0) :: rest)) = false /\
                 tk (ts1 ++ (SEMI, a) :: ts2 ++ (RBRACE, a0) :: rest) <> LBRACE /\ tk (ts1 ++ (SEMI, a) :: ts2 ++ (RBRACE, a0) :: rest) <> SEMI).
    { inversion H0; subst.
      all: match goal with X : G (GDeclr false) ?t _ |- _ => pose proof (declr_first _ _ _ _ _ _ X (ex_intro _ false (or_introl eq_refl))) as DF; pose proof (declr_ne _ _ _ X) as DN end.
      all: destruct DF as [DF|DF]; [contradiction|]; rewrite <- ?app_assoc, tk_app by assumption; cbn [In] in DF;
           repeat (destruct DF as [<-|DF]; [repeat split; discriminate|]); contradiction. }
    destruct DF as (D1 & D2 & D3).
    destruct (IHH1 false (ts1 ++ (SEMI, a) :: ts2 ++ (RBRACE, a0) :: rest) v) as (v1 & _ & [f1 E1]); [right; discriminate|assumption|assumption|].
    destruct (IHH2 acc a (ts2 ++ (RBRACE, a0) :: rest) v1) as (v2 & [f2 E2]).
    destruct (IHH3 (acc ++ l1) a0 rest v2) as (v3 & [f3 E3]).
    exists v3. sstart (Nat.max f1 (Nat.max f2 f3)). rewrite tk_app by assumption. rewrite N2.
    rewrite (eqb_ne (tk ts) RBRACE) by (intros E; rewrite E in N2; discriminate). cbn [negb].
    rewrite E1 by lia. cbn [spbind]. rewrite (eqb_ne _ SEMI) by assumption. rewrite E2 by lia. cbn [libind sexpect]. tst.
    rewrite E3 by lia. rewrite <- app_assoc. reflexivity.
  - (* one member declarator *) intros acc a rest v.
    destruct (declr_use ts n ls b ((SEMI, a) :: rest) v H H0) as (v1 & _ & [f1 E1]); [cbn; intuition discriminate|reflexivity|].
    exists v1. sstart f1. rewrite E1 by lia. cbn [debind]. tst. reflexivity.
  - (* several *) intros acc a0 rest v. app_norm.
    destruct (declr_use ts n ls b ((COMMA, a) :: ts2 ++ (SEMI, a0) :: rest) v H H0) as (v1 & _ & [f1 E1]); [cbn; intuition discriminate|reflexivity|].
    destruct (IHH (acc ++ [decl_node n ls b]) a0 rest v1) as (v2 & [f2 E2]).
    exists v2. sstart (Nat.max f1 f2). rewrite E1 by lia. cbn [debind]. tst. rewrite E2 by lia. rewrite <- app_assoc. reflexivity.
  - (* enumerators *) intros acc a rest v. exists v. cbn [app]. sstart 0%nat. tst. cbn [sexpect]. tst. reflexivity.
  - intros acc a0 rest v. cbn [app]. destruct (assign_use ts e ((RBRACE, a0) :: rest) v H) as (v1 & _ & [f1 E1]); [fsolve|].
    exists v1. sstart f1. tst. rewrite E1 by lia. cbn [exbind sexpect]. tst. reflexivity.
  - intros acc a0 rest v. exists v. cbn [app]. sstart 1%nat. tst. destruct f as [|f]; [lia|]. cbn [ParseStmt.PS ParseStmt.SB]. tst. reflexivity.
  - intros acc a0 rest v. app_norm. destruct (assign_use ts e ((COMMA, b) :: (RBRACE, a0) :: rest) v H) as (v1 & _ & [f1 E1]); [fsolve|].
    exists v1. sstart (S f1). tst. rewrite E1 by lia. cbn [exbind]. tst. destruct f as [|f]; [lia|]. cbn [ParseStmt.PS ParseStmt.SB]. tst. reflexivity.
  - intros acc a0 rest v. cbn [app]. destruct (IHH (acc ++ [(x, None)]) a0 rest v) as (v1 & [f1 E1]).
    exists v1. sstart f1. tst. rewrite E1 by lia. rewrite <- app_assoc. reflexivity.
  - intros acc a0 rest v. app_norm. destruct (assign_use ts e ((COMMA, b) :: ts2 ++ (RBRACE, a0) :: rest) v H) as (v1 & _ & [f1 E1]); [fsolve|].
    destruct (IHH (acc ++ [(x, Some e)]) a0 rest v1) as (v2 & [f2 E2]).
    exists v2. sstart (Nat.max f1 f2). tst. rewrite E1 by lia. cbn [exbind]. tst. rewrite E2 by lia. rewrite <- app_assoc. reflexivity.
  - (* initializer *) intros rest v F. destruct (assign_use ts e rest v H F) as (v1 & F1 & [f1 E1]). exists v1. split; [assumption|].
    sstart f1. destruct (expr_firsts_ok _ _ _ _ _ _ H I) as [N1 N2]. rewrite tk_app by assumption.
    rewrite eqb_ne by (intros X; rewrite X in N2; cbn in N2; intuition discriminate).
    rewrite E1 by lia. reflexivity.
  - (* list *) intros rest v F. app_norm. destruct (IHH [] b rest v) as (v1 & F1 & [f1 E1]). exists v1. split; [flt|].
    sstart f1. tst. rewrite E1 by lia. reflexivity.
  - intros acc a rest v. destruct (IHH ((RBRACE, a) :: rest) v) as (v1 & F1 & [f1 E1]); [fsolve|]. exists v1. split; [assumption|].
    destruct (hfirst_ok _ _ _ _ _ _ H) as [N1 N2]. sstart f1.
    rewrite tk_app by assumption. rewrite (eqb_ne (tk ts) RBRACE), (eqb_ne (tk ts) EOFt) by (intros X; rewrite X in N2; cbn in N2; intuition discriminate). cbn [orb].
    replace (sh && (tk ts =? LBRACE)) with false by (destruct sh; [cbn; symmetry; apply eqb_ne; auto|reflexivity]).
    rewrite E1 by lia. cbn [abind sexpect]. tst. reflexivity.
  - (* list with final comma *) intros acc a0 rest v. app_norm.
    destruct (IHH ((COMMA, a) :: (RBRACE, a0) :: rest) v) as (v1 & F1 & [f1 E1]); [fsolve|]. exists v1. split; [flt|].
    destruct (hfirst_ok _ _ _ _ _ _ H) as [N1 N2]. sstart (S f1).
    rewrite tk_app by assumption. rewrite (eqb_ne (tk ts) RBRACE), (eqb_ne (tk ts) EOFt) by (intros X; rewrite X in N2; cbn in N2; intuition discriminate). cbn [orb].
    replace (sh && (tk ts =? LBRACE)) with false by (destruct sh; [cbn; symmetry; apply eqb_ne; auto|reflexivity]).
    rewrite E1 by lia. cbn [abind]. tst. destruct f as [|f]; [lia|]. cbn [ParseStmt.PS ParseStmt.SB sexpect]. tst. reflexivity.
  - intros acc a0 rest v. app_norm.
    destruct (IHH1 ((COMMA, a) :: ts2 ++ (RBRACE, a0) :: rest) v) as (v1 & F1 & [f1 E1]); [fsolve|].
    destruct (IHH2 (acc ++ [e]) a0 rest v1) as (v2 & F2 & [f2 E2]). exists v2. split; [flt|].
    destruct (hfirst_ok _ _ _ _ _ _ H) as [N1 N2]. sstart (Nat.max f1 f2).
    rewrite tk_app by assumption. rewrite (eqb_ne (tk ts) RBRACE), (eqb_ne (tk ts) EOFt) by (intros X; rewrite X in N2; cbn in N2; intuition discriminate). cbn [orb].
    replace (sh && (tk ts =? LBRACE)) with false by (destruct sh; [cbn; symmetry; apply eqb_ne; auto|reflexivity]).
    rewrite E1 by lia. cbn [abind]. tst. rewrite E2 by lia. rewrite <- app_assoc. reflexivity.
  - (* declarator *) intros rest v Hr.
    destruct (declr_use ts n ls b rest v H H0) as (v1 & F1 & [f1 E1]); [destruct Hr as [-> | ->]; cbn; intuition discriminate|destruct Hr as [-> | ->]; reflexivity|].
    exists v1. split; [assumption|]. sstart f1. rewrite E1 by lia. cbn [debind].
    rewrite (eqb_ne (tk rest) EQ) by (destruct Hr as [-> | ->]; discriminate). rewrite andb_false_r. reflexivity.
  - (* declarator with initializer *) intros rest v Hr. app_norm.
    destruct (declr_use ts n ls b ((EQ, a) :: ts2 ++ rest) v H H0) as (v1 & F1 & [f1 E1]); [cbn; intuition discriminate|reflexivity|].
    destruct (IHH rest v1) as (v2 & F2 & [f2 E2]).
    { destruct rest as [|[t x] rest]; [cbn in Hr; destruct Hr; discriminate|]. cbn [tk] in Hr. destruct Hr as [-> | ->]; fsolve. }
    exists v2. split; [flt|]. sstart (Nat.max f1 f2). rewrite E1 by lia. cbn [debind]. tst. rewrite E2 by lia. reflexivity.
  - (* no more declarators *) intros acc a rest v. exists v. split; [apply fl_refl|]. cbn [app]. sstart 0%nat. tst. rewrite app_nil_r. reflexivity.
  - intros acc a0 rest v. app_norm.
    assert (HF : tk (ts2 ++ (SEMI, a0) :: rest) = COMMA \/ tk (ts2 ++ (SEMI, a0) :: rest) = SEMI).
    { destruct (hfirst_ok _ _ _ _ _ _ H0) as [-> |E]; [right; reflexivity|]. left. destruct ts2; [discriminate|]. exact E. }
    destruct (IHH1 (ts2 ++ (SEMI, a0) :: rest) v HF) as (v1 & F1 & [f1 E1]).
    destruct (IHH2 (acc ++ [d]) a0 rest v1) as (v2 & F2 & [f2 E2]). exists v2. split; [flt|].
    sstart (Nat.max f1 f2). tst. rewrite E1 by lia. cbn [abind]. rewrite E2 by lia. rewrite <- app_assoc. reflexivity.
  - (* struct declaration *) intros local rest v. app_norm.
    destruct (IHH true ((SEMI, a) :: rest) v) as (v1 & _ & [f1 E1]); [left; reflexivity|reflexivity|discriminate|].
    exists v1. sstart f1. rewrite E1 by lia. cbn [spbind]. tst. rewrite (tagged_ok _ H0). reflexivity.
  - (* variables *) intros local rest v. app_norm.
    assert (HF : tk (ts2 ++ (SEMI, a) :: rest) = COMMA \/ tk (ts2 ++ (SEMI, a) :: rest) = SEMI).
    { destruct (hfirst_ok _ _ _ _ _ _ H2) as [-> |E]; [right; reflexivity|]. left. destruct ts2; [discriminate|]. exact E. }
    destruct (ideclr_first _ _ _ _ (ts2 ++ (SEMI, a) :: rest) H1) as (D1 & D2 & D3).
    destruct (IHH1 true (ts1 ++ ts2 ++ (SEMI, a) :: rest) v) as (v1 & S1 & [f1 E1]); [left; reflexivity|assumption|assumption|].
    destruct (IHH2 (ts2 ++ (SEMI, a) :: rest) v1 HF) as (v2 & F2 & [f2 E2]).
    destruct (IHH3 [d] a rest v2) as (v3 & F3 & [f3 E3]).
    assert (S3 : snd v3 = sc).
    { assert (F : fl (ts1 ++ ts2) v1 v3) by flt. destruct H3 as [-> |NT]; [eapply fl_zero; eauto|].
      destruct F as [_ [F|[_ (t & Ht & Hs)]]]; [congruence|]. exfalso. unfold no_types in NT. rewrite Forall_forall in NT. rewrite (NT t Ht) in Hs. discriminate. }
    exists v3. sstart (Nat.max f1 (Nat.max f2 f3)). rewrite E1 by lia. cbn [spbind]. rewrite (eqb_ne _ SEMI), (eqb_ne sc) by assumption.
    rewrite E2 by lia. cbn [abind]. replace (tk (ts2 ++ (SEMI, a) :: rest) =? LBRACE) with false by (destruct HF as [-> | ->]; reflexivity).
    rewrite andb_false_r. rewrite E3 by lia. cbn [libind snd sexpect]. tst. rewrite S3. reflexivity.
  - (* typedef *) intros local td' rest v Htd. app_norm.
    assert (HF : tk (ts2 ++ (SEMI, a) :: rest) = COMMA \/ tk (ts2 ++ (SEMI, a) :: rest) = SEMI).
    { destruct (hfirst_ok _ _ _ _ _ _ H1) as [-> |E]; [right; reflexivity|]. left. destruct ts2; [discriminate|]. exact E. }
    destruct (ideclr_first _ _ _ _ (ts2 ++ (SEMI, a) :: rest) H0) as (D1 & D2 & D3).
    destruct (IHH1 true (ts1 ++ ts2 ++ (SEMI, a) :: rest) v) as (v1 & S1 & [f1 E1]); [left; reflexivity|assumption|assumption|].
    destruct (IHH2 (ts2 ++ (SEMI, a) :: rest) v1 HF) as (v2 & F2 & [f2 E2]).
    destruct (IHH3 [d] a rest v2) as (v3 & F3 & [f3 E3]).
    exists v3. sstart (Nat.max f1 (Nat.max f2 f3)). rewrite E1 by lia. cbn [spbind]. rewrite (eqb_ne _ SEMI) by assumption. tst.
    rewrite E2 by lia. cbn [abind]. rewrite E3 by lia. cbn [libind app]. rewrite Htd. cbn [map]. unfold cls at 1. cbn [fst]. tst. cbn [sexpect]. tst. reflexivity.
  - (* function definition *) intros rest v. app_norm.
    assert (D : is_type_starter (tk (ts1 ++ (LBRACE, a) :: ts2 ++ (RBRACE, c) :: rest)) = false /\               tk (ts1 ++ (LBRACE, a) :: ts2 ++ (RBRACE, c) :: rest) <> LBRACE /\ tk (ts1 ++ (LBRACE, a) :: ts2 ++ (RBRACE, c) :: rest) <> SEMI).
    { apply (ideclr_first false b _ (decl_node n (LFun (list_node ps) va :: ls) b)). eapply h_declr; eassumption. }
    destruct D as (D1 & D2 & D3).
    destruct (IHH1 true (ts1 ++ (LBRACE, a) :: ts2 ++ (RBRACE, c) :: rest) v) as (v1 & S1 & [f1 E1]); [left; reflexivity|assumption|assumption|].
    destruct (declr_use ts1 n (LFun (list_node ps) va :: ls) b ((LBRACE, a) :: ts2 ++ (RBRACE, c) :: rest) v1 H1 H2) as (v2 & _ & [f2 E2]); [cbn; intuition discriminate|reflexivity|].
    destruct (IHH2 [] c rest v2) as (v3 & [f3 E3]).
    exists v3. sstart (S (Nat.max f1 (Nat.max f2 f3))). rewrite E1 by lia. cbn [spbind]. rewrite (eqb_ne _ SEMI), (eqb_ne sc) by assumption.
    assert (E4 : PS f (SDInit false b) (td, ts1 ++ (LBRACE, a) :: ts2 ++ (RBRACE, c) :: rest, v1) =
                 Some (XA (decl_node n (LFun (list_node ps) va :: ls) b), (td, (LBRACE, a) :: ts2 ++ (RBRACE, c) :: rest, v2))).
    { destruct f as [|f]; [lia|]. cbn [ParseStmt.PS ParseStmt.SB]. rewrite E2 by lia. cbn [debind]. tst. reflexivity. }
    rewrite E4. cbn [abind].
    change (child 1 (decl_node n (LFun (list_node ps) va :: ls) b)) with (wrap (LFun (list_node ps) va :: ls) b).
    change (get_op (wrap (LFun (list_node ps) va :: ls) b)) with LPAR.
    change (child 1 (wrap (LFun (list_node ps) va :: ls) b)) with (list_node ps).
    change (child 2 (decl_node n (LFun (list_node ps) va :: ls) b)) with (Raw 0). tst. rewrite named_ok by assumption. cbn [negb].
    rewrite E3 by lia. reflexivity.
  - (* empty block *) intros acc a rest v. exists v. cbn [app]. sstart 0%nat. tst. cbn [sexpect]. tst. rewrite app_nil_r. reflexivity.
  - (* declaration in a block *) intros acc a rest v. app_norm. destruct (hfirst_ok _ _ _ _ _ _ H) as [N1 N2].
    destruct (IHH1 true (ts2 ++ (RBRACE, a) :: rest) v) as (v1 & [f1 E1]).
    destruct (IHH2 (acc ++ [d]) a rest v1) as (v2 & [f2 E2]). exists v2. sstart (Nat.max f1 f2).
    rewrite tk_app by assumption. rewrite N2. rewrite (eqb_ne (tk ts) RBRACE), (eqb_ne (tk ts) EOFt) by (intros X; rewrite X in N2; discriminate). cbn [orb].
    rewrite E1 by lia. cbn [abind]. rewrite E2 by lia. rewrite <- app_assoc. reflexivity.
  - (* statement in a block *) intros acc a rest v. app_norm. destruct (hfirst_ok _ _ _ _ _ _ H) as [N1 N2].
    destruct (IHH1 (ts2 ++ (RBRACE, a) :: rest) v) as (v1 & [f1 E1]); [intros _; eapply items_else; eassumption|].
    destruct (IHH2 (acc ++ [d]) a rest v1) as (v2 & [f2 E2]). exists v2. sstart (Nat.max f1 f2).
    rewrite tk_app by assumption. rewrite stmt_not_starter by assumption.
    rewrite (eqb_ne (tk ts) RBRACE), (eqb_ne (tk ts) EOFt) by (intros X; rewrite X in N2; cbn in N2; intuition discriminate). cbn [orb].
    rewrite E1 by lia. cbn [abind]. rewrite E2 by lia. rewrite <- app_assoc. reflexivity.
  - (* block *) intros rest v _. app_norm. destruct (IHH [] b rest v) as (v1 & [f1 E1]). exists v1. sstart f1. tst. rewrite E1 by lia. reflexivity.
  - (* expression statement *) intros rest v _. app_norm.
    destruct (opt_run e ts SEMI a rest v 0%nat IHH) as (v1 & f1 & _ & E1); [cbn; tauto|]. exists v1. sstart f1.
    assert (N : In (tk (ts ++ (SEMI, a) :: rest)) (SEMI :: expr_firsts)).
    { destruct IHH as [[-> ->]|K]; [left; reflexivity|]. destruct (expr_firsts_ok _ _ _ _ _ _ K I) as [K1 K2]. rewrite tk_app by assumption. right. assumption. }
    optrw E1 f. tst. cbn [sexpect]. tst.
    unfold expr_firsts in N. cbn [In] in N. repeat (destruct N as [<-|N]; [tst; reflexivity|]). contradiction.
  - (* label *) intros rest v Hr. cbn [app]. destruct (expr_use [(IDENTIFIER, x)] (new_ast0 IDENTIFIER x) ((COLON, a) :: ts ++ rest) v) as (v1 & _ & [f1 E1]).
    { apply g_expr0, g_assign0, g_cond0. apply id_bin. } { fsolve. }
    destruct (IHH rest v1 Hr) as (v2 & [f2 E2]). exists v2. sstart (Nat.max f1 f2). tst. cbn [app] in E1. rewrite E1 by lia. cbn [exbind].
    change (get_op (new_ast0 IDENTIFIER x)) with IDENTIFIER. tst. rewrite E2 by lia. reflexivity.
  - (* case *) intros rest v Hr. app_norm. destruct (expr_use ts1 e ((COLON, b) :: ts ++ rest) v) as (v1 & _ & [f1 E1]); [apply g_expr0, g_assign0; assumption|fsolve|].
    destruct (IHH rest v1 Hr) as (v2 & [f2 E2]). exists v2. sstart (Nat.max f1 f2). tst. rewrite E1 by lia. cbn [exbind sexpect]. tst. rewrite E2 by lia. reflexivity.
  - (* default *) intros rest v Hr. cbn [app]. destruct (IHH rest v Hr) as (v2 & [f2 E2]). exists v2. sstart f2. tst. cbn [sexpect]. tst. rewrite E2 by lia. reflexivity.
  - (* if *) intros rest v Hr. app_norm. destruct (paren_use te e c (ts ++ rest) v H) as (v1 & [f1 E1]).
    destruct (IHH rest v1) as (v2 & [f2 E2]); [intros _; apply Hr; reflexivity|]. exists v2. sstart (Nat.max f1 f2). tst. cbn [sexpect]. tst.
    rewrite E1 by lia. cbn [exbind]. rewrite E2 by lia. cbn [abind]. rewrite (eqb_ne (tk rest)) by (apply Hr; reflexivity). reflexivity.
  - (* if else *) intros rest v Hr. app_norm. destruct (paren_use te e c (ts ++ (ELSE_KW, d) :: ts2 ++ rest) v H) as (v1 & [f1 E1]).
    destruct (IHH1 ((ELSE_KW, d) :: ts2 ++ rest) v1 ltac:(discriminate)) as (v2 & [f2 E2]).
    destruct (IHH2 rest v2 Hr) as (v3 & [f3 E3]). exists v3. sstart (Nat.max f1 (Nat.max f2 f3)). tst. cbn [sexpect]. tst.
    rewrite E1 by lia. cbn [exbind]. rewrite E2 by lia. cbn [abind]. tst. rewrite E3 by lia. reflexivity.
  - (* switch *) intros rest v Hr. app_norm. destruct (paren_use te e c (ts ++ rest) v H) as (v1 & [f1 E1]).
    destruct (IHH rest v1 Hr) as (v2 & [f2 E2]). exists v2. sstart (Nat.max f1 f2). tst. cbn [sexpect]. tst.
    rewrite E1 by lia. cbn [exbind]. rewrite E2 by lia. reflexivity.
  - (* while *) intros rest v Hr. app_norm. destruct (paren_use te e c (ts ++ rest) v H) as (v1 & [f1 E1]).
    destruct (IHH rest v1 Hr) as (v2 & [f2 E2]). exists v2. sstart (Nat.max f1 f2). tst. cbn [sexpect]. tst.
    rewrite E1 by lia. cbn [exbind]. rewrite E2 by lia. reflexivity.
  - (* do *) intros rest v _. app_norm. destruct (IHH ((WHILE_KW, b) :: (LPAR, c) :: te ++ (RPAR, d) :: (SEMI, f) :: rest) v ltac:(discriminate)) as (v1 & [f1 E1]).
    destruct (paren_use te e d ((SEMI, f) :: rest) v1 H0) as (v2 & [f2 E2]).
    exists v2. apply evs_step. exists (Nat.max f1 f2). intros f' Hf. cbn [ParseStmt.SB]. tst. rewrite E1 by lia. cbn [abind sexpect]. tst.
    rewrite E2 by lia. cbn [exbind]. tst. reflexivity.
  - (* for *) intros rest v Hr. app_norm.
    destruct (opt_run e1 t1 SEMI c (t2 ++ (SEMI, d) :: t3 ++ (RPAR, f) :: ts ++ rest) v 0%nat IHH1) as (v1 & f1 & _ & E1); [cbn; tauto|].
    destruct (opt_run e2 t2 SEMI d (t3 ++ (RPAR, f) :: ts ++ rest) v1 f1 IHH2) as (v2 & f2 & L2 & E2); [cbn; tauto|].
    destruct (opt_run e3 t3 RPAR f (ts ++ rest) v2 f2 IHH3) as (v3 & f3 & L3 & E3); [cbn; tauto|].
    destruct (IHH4 rest v3 Hr) as (v4 & [f4 E4]).
    exists v4. apply evs_step. exists (Nat.max f3 f4). intros f' Hf. cbn [ParseStmt.SB]. tst. rewrite sexpect_ok.
    optrw E1 f'. rewrite sexpect_ok. optrw E2 f'. rewrite sexpect_ok. optrw E3 f'. rewrite sexpect_ok. rewrite E4 by lia. reflexivity.
  - (* goto *) intros rest v _. exists v. cbn [app]. sstart 0%nat. tst. cbn [sexpect]. tst. reflexivity.
  - (* continue *) intros rest v _. exists v. cbn [app]. sstart 0%nat. tst. cbn [sexpect]. tst. reflexivity.
  - (* break *) intros rest v _. exists v. cbn [app]. sstart 0%nat. tst. cbn [sexpect]. tst. reflexivity.
  - (* return *) intros rest v _. app_norm.
    destruct (opt_run e ts SEMI b rest v 0%nat IHH) as (v1 & f1 & _ & E1); [cbn; tauto|]. exists v1. sstart f1. tst.
    optrw E1 f. rewrite sexpect_ok. reflexivity.
Qed.
End Complete.

(* ================= C49 ================= *)
Section Theorems.
Variables (sh : bool) (join : Z -> Z -> Z).

(* A file of the C grammar is parsed, to the end, to the list of trees the grammar assigns.  The input is what the
   tokenizer delivers: the tokens with the names already known as types marked. *)
Theorem c49_file : forall td ts l v, F sh join td ts l ->
  exists td' v', SParses sh join (SFile []) (td, map (cls td) ts, v) (XL l, (td', [], v')).
Proof.
  intros td ts l v K.
  assert (A : forall acc v, exists td' v', evs sh join (SFile acc) (td, map (cls td) ts, v) (XL (acc ++ l), (td', [], v'))).
  2: { destruct (A [] v) as (td' & v' & E). exists td', v'. apply evs_iff. exact E. }
  clear v. induction K as [td|td g ts d rest l Hg Hd _ IH|td ts ds td' rest l Hd Ht _ IH]; intros acc v.
  - exists td, v. sstart 0%nat. cbn [map]. tst. rewrite app_nil_r. reflexivity.
  - rewrite map_app.
    assert (B : exists v1, evs sh join (SDecl false) (td, map (cls td) ts ++ map (cls td) rest, v) (XA d, (td, map (cls td) rest, v1))).
    { destruct Hg as [-> | ->]; [exact (hcomplete _ _ _ _ _ _ Hd false (map (cls td) rest) v)|exact (hcomplete _ _ _ _ _ _ Hd (map (cls td) rest) v)]. }
    destruct B as (v1 & [f1 E1]). destruct (IH (acc ++ [d]) v1) as (td' & v2 & [f2 E2]). exists td', v2. sstart (Nat.max f1 f2).
    assert (N : map (cls td) ts <> [] /\ is_type_starter (tk (map (cls td) ts)) = true) by (pose proof (hfirst_ok _ _ _ _ _ _ Hd); destruct Hg as [-> | ->]; assumption).
    destruct N as [N1 N2]. rewrite tk_app by assumption. rewrite (eqb_ne _ EOFt) by (intros X; rewrite X in N2; discriminate).
    rewrite E1 by lia. cbn [abind]. rewrite E2 by lia. rewrite <- app_assoc. reflexivity.
  - rewrite map_app. destruct (hcomplete _ _ _ _ _ _ Hd false td' (map (cls td) rest) v (adds_ok sh _ _ _ Ht)) as (v1 & [f1 E1]).
    assert (R : map (cls td') (map (cls td) rest) = map (cls td') rest) by (rewrite map_map; apply map_ext; intros t; apply cls_cls).
    rewrite R in E1. destruct (IH (acc ++ [new_ast1 TYPEDEF_KW (list_node ds)]) v1) as (td2 & v2 & [f2 E2]). exists td2, v2. sstart (Nat.max f1 f2).
    destruct (hfirst_ok _ _ _ _ _ _ Hd) as [N1 N2].
    rewrite tk_app by assumption. rewrite (eqb_ne _ EOFt) by (intros X; rewrite X in N2; discriminate).
    rewrite E1 by lia. cbn [abind]. rewrite E2 by lia. rewrite <- app_assoc. reflexivity.
Qed.

(* the typed syntax of a file is unambiguous *)
Theorem c49_unambiguous : forall td ts l1 l2, F sh join td ts l1 -> F sh join td ts l2 -> l1 = l2.
Proof.
  intros td ts l1 l2 K1 K2.
  destruct (c49_file td ts l1 (false, 0) K1) as (t1 & v1 & P1). destruct (c49_file td ts l2 (false, 0) K2) as (t2 & v2 & P2).
  pose proof (c49_deterministic _ _ _ _ _ _ P1 P2) as E. congruence.
Qed.

(* A statement, wherever it stands, is parsed to its tree and the parser stops exactly at its end; only a statement that ends in an
   if without else must not be followed by else. *)
Theorem c49_statement : forall td open ts s rest v, H sh td join (HStmt open) ts (QE s) -> (open = true -> tk rest <> ELSE_KW) ->
  exists v', SParses sh join SStmt (td, ts ++ rest, v) (XA s, (td, rest, v')).
Proof. intros td open ts s rest v K Hr. destruct (hcomplete _ _ _ _ _ _ K rest v Hr) as (v' & E). exists v'. apply evs_iff, E. Qed.
Theorem c49_declaration : forall td local ts d rest v, H sh td join HDecl ts (QE d) ->
  exists v', SParses sh join (SDecl local) (td, ts ++ rest, v) (XA d, (td, rest, v')).
Proof. intros td local ts d rest v K. destruct (hcomplete _ _ _ _ _ _ K local rest v) as (v' & E). exists v'. apply evs_iff, E. Qed.

(* The else belongs to the nearest if. *)
Theorem c49_dangling_else : forall td ts1 e1 ts2 e2 s1 t1 s2 t2 o rest v,
  G sh td join GExpr ts1 (OE e1) -> G sh td join GExpr ts2 (OE e2) ->
  H sh td join (HStmt false) s1 (QE t1) -> H sh td join (HStmt o) s2 (QE t2) -> tk rest <> ELSE_KW ->
  exists v', SParses sh join SStmt
    (td, (IF_KW, 0) :: (LPAR, 0) :: ts1 ++ (RPAR, 0) :: (IF_KW, 0) :: (LPAR, 0) :: ts2 ++ (RPAR, 0) :: s1 ++ (ELSE_KW, 0) :: s2 ++ rest, v)
    (XA (new_ast3 IF_KW (new_ast1 PARENS e1) (new_ast3 IF_KW (new_ast1 PARENS e2) t1 t2) (Raw 0)), (td, rest, v')).
Proof.
  intros td ts1 e1 ts2 e2 s1 t1 s2 t2 o rest v G1 G2 H1 H2 Hr.
  pose proof (h_ifelse sh td join o 0 0 ts2 e2 0 s1 t1 0 s2 t2 G2 H1 H2) as K2.
  pose proof (h_if sh td join o 0 0 ts1 e1 0 _ _ G1 K2) as K1.
  destruct (c49_statement td true _ _ rest v K1 (fun _ => Hr)) as (v' & E). exists v'. revert E. app_norm. trivial.
Qed.
End Theorems.

(* ---- where it fails: the restrictions of the grammar ---- *)
Definition td0 : tdm := fun _ => None.
Definition jn (a b : Z) : Z := a.
Definition ntok (x : Z) : token := (x, 0).
(* R5:  static int x = (int) 5;  loses its storage class, and so does  static int f(int);  *)
Theorem c49_storage_class_refuted :
  (exists d v, SParses false jn (SDecl false)
     (td0, [ntok STATIC_KW; ntok INT_KW; (IDENTIFIER, 7); ntok EQ; ntok LPAR; ntok INT_KW; ntok RPAR; (INTEGER, -5); ntok SEMI], (false, 0))
     (XA (new_ast2 DECLS d (Raw 0)), (td0, [], v))) /\
  (exists d v, SParses false jn (SDecl false)
     (td0, [ntok STATIC_KW; ntok INT_KW; (IDENTIFIER, 7); ntok LPAR; ntok INT_KW; ntok RPAR; ntok SEMI], (false, 0))
     (XA (new_ast2 DECLS d (Raw 0)), (td0, [], v))) /\
  (exists d v, SParses false jn (SDecl false)
     (td0, [ntok STATIC_KW; ntok INT_KW; (IDENTIFIER, 7); ntok EQ; (INTEGER, -5); ntok SEMI], (false, 0))
     (XA (new_ast2 DECLS d (Raw STATIC_KW)), (td0, [], v))).
Proof. repeat split; do 2 eexists; exists 40%nat; vm_compute; reflexivity. Qed.
(* R4:  goto 7;  where the semicolon comes from a macro (and carries another value) jumps to another label *)
Theorem c49_goto_refuted : exists v, SParses false jn SStmt
  (td0, [ntok GOTO_KW; (IDENTIFIER, 7); (SEMI, 9)], (false, 0)) (XA (new_ast1 GOTO_KW (new_ast0 IDENTIFIER 9)), (td0, [], v)).
Proof. eexists. exists 10%nat. vm_compute. reflexivity. Qed.
(* for (int i = 0; ...) is rejected *)
Theorem c49_for_declaration_rejected : forall r, ~ SParses false jn SStmt
  (td0, [ntok FOR_KW; ntok LPAR; ntok INT_KW; (IDENTIFIER, 7); ntok EQ; (INTEGER, 0); ntok SEMI; ntok SEMI; ntok RPAR; ntok SEMI], (false, 0)) r.
Proof. intros r [f E]. apply (PS_le _ _ _ (40 + f)) in E; [|lia]. vm_compute in E. discriminate. Qed.

(* Non-vacuity:
     typedef int T;   T y = 3, *z;   struct S { T a, b; } ;
     static int f(int n) { T k; if (n) while (n) n--; else return n; L: goto L; }            T = 9, y = 10, ... *)
Section Example.
Let td1 : tdm := fun x => if x =? 9 then Some (new_ast0 INT_KW 0) else None.
Notation H1 := (H false td1 jn).
Notation H0 := (H false td0 jn).
Definition tint : ast := new_ast0 INT_KW 0.
Lemma ex_expr td x : G false td jn GExpr [(IDENTIFIER, x)] (OE (new_ast0 IDENTIFIER x)).
Proof. apply g_expr0, g_assign0, g_cond0, id_bin. Qed.
Lemma ex_spec_int td : H false td jn HSpec [ntok INT_KW] (QS tint 0).
Proof.
  apply (h_spec false td jn [ntok INT_KW] tint [] []); [|cbn; lia|congruence].
  apply (h_type false td jn [ntok INT_KW] tint [] [] [] []); [|apply h_nil]. apply h_core, core_basic. vm_compute. tauto.
Qed.
Lemma ex_spec_T : H1 HSpec [(TYPE, 9)] (QS tint 0).
Proof.
  apply (h_spec false td1 jn [(TYPE, 9)] tint [] []); [|cbn; lia|congruence].
  apply (h_type false td1 jn [(TYPE, 9)] tint [] [] [] []); [|apply h_nil]. apply h_core, core_typedef. reflexivity.
Qed.
Lemma ex_name td x : G false td jn (GDeclr false) [(IDENTIFIER, x)] (OD (new_ast0 IDENTIFIER x) []).
Proof. apply g_direct, g_name. Qed.
Definition ex_file : list token :=
  [ntok TYPEDEF_KW; ntok INT_KW; (IDENTIFIER, 9); ntok SEMI;
   (IDENTIFIER, 9); (IDENTIFIER, 10); ntok EQ; (INTEGER, -3); ntok COMMA; ntok STAR; (IDENTIFIER, 11); ntok SEMI;
   ntok STRUCT_KW; (IDENTIFIER, 12); ntok LBRACE; (IDENTIFIER, 9); (IDENTIFIER, 13); ntok COMMA; (IDENTIFIER, 14); ntok SEMI; ntok RBRACE; ntok SEMI;
   ntok STATIC_KW; ntok INT_KW; (IDENTIFIER, 15); ntok LPAR; ntok INT_KW; (IDENTIFIER, 16); ntok RPAR; ntok LBRACE;
     (IDENTIFIER, 9); (IDENTIFIER, 17); ntok SEMI;
     ntok IF_KW; ntok LPAR; (IDENTIFIER, 16); ntok RPAR; ntok WHILE_KW; ntok LPAR; (IDENTIFIER, 16); ntok RPAR; (IDENTIFIER, 16); ntok MINUS_MINUS; ntok SEMI;
     ntok ELSE_KW; ntok RETURN_KW; (IDENTIFIER, 16); ntok SEMI;
     (IDENTIFIER, 18); ntok COLON; ntok GOTO_KW; (IDENTIFIER, 18); (SEMI, 18); ntok RBRACE].
Definition idn (x : Z) : ast := new_ast0 IDENTIFIER x.
Definition decl (x : Z) (t i : ast) : ast := new_ast3 DECL (idn x) t i.
Definition ex_tree : list ast :=
  [new_ast1 TYPEDEF_KW (list_node [decl 9 tint (Raw 0)]);
   new_ast2 DECLS (list_node [decl 10 tint (new_ast0 INTEGER (-3)); decl 11 (new_ast2 STAR (Raw 0) tint) (Raw 0)]) (Raw 0);
   new_ast3 STRUCT_KW (Raw 0) (idn 12) (list_node [decl 13 tint (Raw 0); decl 14 tint (Raw 0)]);
   new_ast2 FUN_DECL (decl 15 (new_ast3 LPAR tint (list_node [decl 16 tint (Raw 0)]) (Raw 0)) (Raw 0))
     (block [new_ast2 DECLS (list_node [decl 17 tint (Raw 0)]) (Raw 0);
             new_ast3 IF_KW (new_ast1 PARENS (idn 16)) (new_ast2 WHILE_KW (new_ast1 PARENS (idn 16)) (new_ast1 MINUS_MINUS_POST (idn 16)))
               (new_ast1 RETURN_KW (idn 16));
             new_ast2 COLON (idn 18) (new_ast1 GOTO_KW (idn 18))])].
Lemma td1_eq : forall ts, map (cls (fun x => if x =? 9 then Some tint else td0 x)) ts = map (cls td1) ts.
Proof. reflexivity. Qed.
Example c49_example : F false jn td0 ex_file ex_tree.
Proof.
  unfold ex_file, ex_tree.
  apply (f_typedef false jn td0 [ntok TYPEDEF_KW; ntok INT_KW; (IDENTIFIER, 9); ntok SEMI] [decl 9 tint (Raw 0)] td1).
  { change (map _ _) with [ntok TYPEDEF_KW; ntok INT_KW; (IDENTIFIER, 9); ntok SEMI].
    apply (h_typedef false td0 jn [ntok TYPEDEF_KW; ntok INT_KW] tint [(IDENTIFIER, 9)] _ [] [] 0).
    - apply (h_spec false td0 jn [ntok TYPEDEF_KW; ntok INT_KW] tint [TYPEDEF_KW] []); [|cbn; lia|congruence].
      apply h_storage; [cbn; tauto|]. apply (h_type false td0 jn [ntok INT_KW] tint [] [] [] []); [|apply h_nil]. apply h_core, core_basic. vm_compute. tauto.
    - apply (h_declr false td0 jn true tint [(IDENTIFIER, 9)] (idn 9) []); [apply ex_name|exact I].
    - apply h_tail0. }
  { apply (ta_cons false td0 9 tint); [discriminate|apply ta_nil]. }
  apply (f_decl false jn td1 HDecl [(IDENTIFIER, 9); (IDENTIFIER, 10); ntok EQ; (INTEGER, -3); ntok COMMA; ntok STAR; (IDENTIFIER, 11); ntok SEMI]); [auto| |].
  { change (map _ _) with [(TYPE, 9); (IDENTIFIER, 10); ntok EQ; (INTEGER, -3); ntok COMMA; ntok STAR; (IDENTIFIER, 11); ntok SEMI].
    apply (h_dvars false td1 jn [(TYPE, 9)] tint 0 [(IDENTIFIER, 10); ntok EQ; (INTEGER, -3)] _ [ntok COMMA; ntok STAR; (IDENTIFIER, 11)] [_] 0); [apply ex_spec_T|discriminate| | |left; reflexivity].
    - apply (h_declri false td1 jn tint [(IDENTIFIER, 10)] (idn 10) [] 0 [(INTEGER, -3)]); [apply ex_name|exact I|].
      apply h_init, g_assign0, g_cond0, (ex_up td1 jn 10), g_unary, g_post, g_leaf. reflexivity.
    - apply (h_tail false td1 jn false tint 0 [ntok STAR; (IDENTIFIER, 11)] _ [] []); [|apply h_tail0].
      apply (h_declr false td1 jn false tint [ntok STAR; (IDENTIFIER, 11)] (idn 11) [LPtr false]); [|exact I].
      apply (g_ptr false td1 jn false 0 [(IDENTIFIER, 11)] (idn 11) []), ex_name. }
  apply (f_decl false jn td1 HDecl [ntok STRUCT_KW; (IDENTIFIER, 12); ntok LBRACE; (IDENTIFIER, 9); (IDENTIFIER, 13); ntok COMMA; (IDENTIFIER, 14); ntok SEMI; ntok RBRACE; ntok SEMI]); [auto| |].
  { change (map _ _) with [ntok STRUCT_KW; (IDENTIFIER, 12); ntok LBRACE; (TYPE, 9); (IDENTIFIER, 13); ntok COMMA; (IDENTIFIER, 14); ntok SEMI; ntok RBRACE; ntok SEMI].
    apply (h_dtag false td1 jn [ntok STRUCT_KW; (IDENTIFIER, 12); ntok LBRACE; (TYPE, 9); (IDENTIFIER, 13); ntok COMMA; (IDENTIFIER, 14); ntok SEMI; ntok RBRACE]); [|cbn; tauto].
    apply (h_spec false td1 jn _ (new_ast3 STRUCT_KW (Raw 0) (idn 12) _) [] []); [|cbn; lia|congruence].
    apply (h_type false td1 jn [ntok STRUCT_KW; (IDENTIFIER, 12); ntok LBRACE; (TYPE, 9); (IDENTIFIER, 13); ntok COMMA; (IDENTIFIER, 14); ntok SEMI; ntok RBRACE] _ [] [] [] []); [|apply h_nil].
    apply (h_struct false td1 jn STRUCT_KW 0 [(IDENTIFIER, 12)] (idn 12) 0 [(TYPE, 9); (IDENTIFIER, 13); ntok COMMA; (IDENTIFIER, 14); ntok SEMI]); [auto|apply tag_some; auto|].
    apply (h_mem false td1 jn [(TYPE, 9)] tint [(IDENTIFIER, 13); ntok COMMA; (IDENTIFIER, 14)] [_; _] 0 [] []); [apply ex_spec_T| |apply h_mem0].
    apply (h_mdecls false td1 jn tint [(IDENTIFIER, 13)] (idn 13) [] 0 [(IDENTIFIER, 14)]); [apply ex_name|exact I|].
    apply (h_mdecl false td1 jn tint [(IDENTIFIER, 14)] (idn 14) []); [apply ex_name|exact I]. }
  rewrite <- (app_nil_r (ntok STATIC_KW :: _)). apply (f_decl false jn td1 HFun); [auto| |apply f_nil].
  match goal with |- H1 _ ?x _ => let y := eval vm_compute in x in change x with y end.
  apply (h_fun false td1 jn [ntok STATIC_KW; ntok INT_KW] tint STATIC_KW [(IDENTIFIER, 15); ntok LPAR; ntok INT_KW; (IDENTIFIER, 16); ntok RPAR] (idn 15)
           [decl 16 tint (Raw 0)] false [] 0
           [(TYPE, 9); (IDENTIFIER, 17); ntok SEMI;
            ntok IF_KW; ntok LPAR; (IDENTIFIER, 16); ntok RPAR; ntok WHILE_KW; ntok LPAR; (IDENTIFIER, 16); ntok RPAR; (IDENTIFIER, 16); ntok MINUS_MINUS; ntok SEMI;
            ntok ELSE_KW; ntok RETURN_KW; (IDENTIFIER, 16); ntok SEMI;
            (IDENTIFIER, 18); ntok COLON; ntok GOTO_KW; (IDENTIFIER, 18); (SEMI, 18)] _ 0).
  - apply (h_spec false td1 jn [ntok STATIC_KW; ntok INT_KW] tint [STATIC_KW] []); [|cbn; lia|congruence].
    apply h_storage; [cbn; tauto|]. apply (h_type false td1 jn [ntok INT_KW] tint [] [] [] []); [|apply h_nil]. apply h_core, core_basic. vm_compute. tauto.
  - discriminate.
  - apply g_direct. apply (g_fun false td1 jn false [(IDENTIFIER, 15)] (idn 15) [] 0 [ntok INT_KW; (IDENTIFIER, 16)] [_] false 0); [apply g_name|discriminate|].
    apply g_params, g_plist1. apply (g_param false td1 jn [ntok INT_KW] tint [(IDENTIFIER, 16)] (idn 16) []); [apply (ex_int td1)|apply g_direct, g_name|exact I|discriminate|cbn; intuition discriminate].
  - exact I.
  - repeat constructor.
  - apply (h_items_d false td1 jn [(TYPE, 9); (IDENTIFIER, 17); ntok SEMI]).
    { apply (h_dvars false td1 jn [(TYPE, 9)] tint 0 [(IDENTIFIER, 17)] _ [] [] 0); [apply ex_spec_T|discriminate| |apply h_tail0|left; reflexivity].
      apply (h_declr false td1 jn false tint [(IDENTIFIER, 17)] (idn 17) []); [apply ex_name|exact I]. }
    apply (h_items_s false td1 jn false [ntok IF_KW; ntok LPAR; (IDENTIFIER, 16); ntok RPAR; ntok WHILE_KW; ntok LPAR; (IDENTIFIER, 16); ntok RPAR; (IDENTIFIER, 16); ntok MINUS_MINUS; ntok SEMI; ntok ELSE_KW; ntok RETURN_KW; (IDENTIFIER, 16); ntok SEMI]).
    { apply (h_ifelse false td1 jn false 0 0 [(IDENTIFIER, 16)] (idn 16) 0 [ntok WHILE_KW; ntok LPAR; (IDENTIFIER, 16); ntok RPAR; (IDENTIFIER, 16); ntok MINUS_MINUS; ntok SEMI] _ 0 [ntok RETURN_KW; (IDENTIFIER, 16); ntok SEMI]); [apply ex_expr| |].
      - apply (h_while false td1 jn false 0 0 [(IDENTIFIER, 16)] (idn 16) 0 [(IDENTIFIER, 16); ntok MINUS_MINUS; ntok SEMI]); [apply ex_expr|].
        apply (h_expr false td1 jn [(IDENTIFIER, 16); ntok MINUS_MINUS]). apply h_opt, g_expr0, g_assign0, g_cond0, (ex_up td1 jn 10), g_unary.
        apply (g_dec false td1 jn [(IDENTIFIER, 16)] (idn 16) 0), g_post, g_leaf. reflexivity.
      - apply (h_return false td1 jn 0 [(IDENTIFIER, 16)]). apply h_opt, ex_expr. }
    apply (h_items_s false td1 jn false [(IDENTIFIER, 18); ntok COLON; ntok GOTO_KW; (IDENTIFIER, 18); (SEMI, 18)] _ [] []); [|apply h_items0]. apply h_label, h_goto.
Qed.
End Example.
