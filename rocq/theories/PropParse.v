(* C14, C15: expressions and declarators are parsed as the C grammar says. *)
From Coq Require Import ZArith List Bool Lia.
From Verif Require Import Base Ast EvalConst Parse Grammar.
Import ListNotations.
Open Scope Z_scope.

Section Mono.
Variables (sh : bool) (typedefs : Z -> option ast) (join : Z -> Z -> Z).
Notation PB := (PB sh typedefs join).
Notation P := (P sh typedefs join).

Lemma ebind_mono x y k1 k2 r : (forall r, x = Some r -> y = Some r) ->
  (forall e ts v r, k1 e ts v = Some r -> k2 e ts v = Some r) -> ebind x k1 = Some r -> ebind y k2 = Some r.
Proof. intros H K. destruct x as [[[e| |] [ts v]]|]; cbn [ebind]; try discriminate. rewrite (H _ eq_refl). apply K. Qed.
Lemma dbind_mono x y k1 k2 r : (forall r, x = Some r -> y = Some r) ->
  (forall n ls p ts v r, k1 n ls p ts v = Some r -> k2 n ls p ts v = Some r) -> dbind x k1 = Some r -> dbind y k2 = Some r.
Proof. intros H K. destruct x as [[[| |] [ts v]]|]; cbn [dbind]; try discriminate. rewrite (H _ eq_refl). apply K. Qed.
Lemma lbind_mono x y k1 k2 r : (forall r, x = Some r -> y = Some r) ->
  (forall l ts v r, k1 l ts v = Some r -> k2 l ts v = Some r) -> lbind x k1 = Some r -> lbind y k2 = Some r.
Proof. intros H K. destruct x as [[[| |] [ts v]]|]; cbn [lbind]; try discriminate. rewrite (H _ eq_refl). apply K. Qed.
Lemma expect_mono t ts k1 k2 r : (forall ts r, k1 ts = Some r -> k2 ts = Some r) -> expect t ts k1 = Some r -> expect t ts k2 = Some r.
Proof. intros K. unfold expect. destruct (_ && _); [apply K|discriminate]. Qed.

Ltac mono H :=
  cbv beta;
  lazymatch goal with
  | |- None = _ -> _ => discriminate
  | |- ebind _ _ = _ -> _ => apply ebind_mono; [intros ?; mono H|intros ? ? ? ?; mono H]
  | |- dbind _ _ = _ -> _ => apply dbind_mono; [intros ?; mono H|intros ? ? ? ? ? ?; mono H]
  | |- lbind _ _ = _ -> _ => apply lbind_mono; [intros ?; mono H|intros ? ? ? ?; mono H]
  | |- expect _ _ _ = _ -> _ => apply expect_mono; intros ? ?; mono H
  | |- (match ?x with _ => _ end) = _ -> _ => destruct x; mono H
  | |- ?a -> ?a => exact (fun x => x)
  | |- _ -> _ => apply H
  end.

Lemma PB_mono r1 r2 : (forall n ts v r, r1 n ts v = Some r -> r2 n ts v = Some r) ->
  forall n ts v r, PB r1 n ts v = Some r -> PB r2 n ts v = Some r.
Proof.
  intros H n ts v r. destruct n; cbn [Parse.PB]; cbv zeta; mono H.
Qed.
Lemma P_mono f : forall n ts v r, P f n ts v = Some r -> P (S f) n ts v = Some r.
Proof.
  induction f as [|f IH]; intros n ts v r H; [discriminate|].
  cbn [Parse.P] in H |- *. eapply PB_mono; [|exact H]. exact IH.
Qed.
Lemma P_le f g n ts v r : (f <= g)%nat -> P f n ts v = Some r -> P g n ts v = Some r.
Proof. induction 1; [auto|]. intros H1. apply P_mono. auto. Qed.

Lemma P_S f n ts v : P (S f) n ts v = PB (P f) n ts v. Proof. reflexivity. Qed.

(* acceptance with enough fuel *)
Definition Parses (n : nt) (ts : list token) (v : glo) (r : res * st) : Prop := exists f, P f n ts v = Some r.
Definition ev (n : nt) (ts : list token) (v : glo) (r : res * st) : Prop := exists f0, forall f, (f0 <= f)%nat -> P f n ts v = Some r.
Lemma ev_iff n ts v r : ev n ts v r <-> Parses n ts v r.
Proof.
  split; intros [f H]; exists f; [apply H; lia|]. intros g Hg. eapply P_le; eassumption.
Qed.
Lemma ev_step n ts v r : (exists f0, forall f, (f0 <= f)%nat -> PB (P f) n ts v = Some r) -> ev n ts v r.
Proof. intros [f0 H]. exists (S f0). intros [|f] Hf; [lia|]. cbn [Parse.P]. apply H. lia. Qed.

Lemma exb_true t l : In t l -> existsb (Z.eqb t) l = true.
Proof. intros H. apply existsb_exists. exists t. split; [assumption|apply Z.eqb_refl]. Qed.
Lemma exb_false t l : ~ In t l -> existsb (Z.eqb t) l = false.
Proof.
  intros H. destruct (existsb (Z.eqb t) l) eqn:E; [|reflexivity]. exfalso. apply H.
  apply existsb_exists in E. destruct E as (x & Hx & E). apply Z.eqb_eq in E. subst. assumption.
Qed.

Lemma existsb_In_Z t l : existsb (Z.eqb t) l = true -> In t l.
Proof. intros E. apply existsb_exists in E. destruct E as (x & Hx & E). apply Z.eqb_eq in E. subst. assumption. Qed.

(* evaluate tests on known tokens *)
Ltac tst :=
  cbn [tk tl fst snd app];
  repeat match goal with
  | |- context [?a =? ?b] =>
      let c := eval vm_compute in (a =? b) in
      match c with true => change (a =? b) with true | false => change (a =? b) with false end
  | |- context [existsb (Z.eqb ?a) ?b] =>
      let c := eval vm_compute in (existsb (Z.eqb a) b) in
      match c with true => change (existsb (Z.eqb a) b) with true | false => change (existsb (Z.eqb a) b) with false end
  | |- context [is_type_starter ?a] =>
      let c := eval vm_compute in (is_type_starter a) in
      match c with true => change (is_type_starter a) with true | false => change (is_type_starter a) with false end
  end; cbn [orb andb negb]; cbv iota.
Ltac evs :=
  repeat match goal with H : ev _ _ _ _ |- _ => let f := fresh "f" in destruct H as [f H] end.
Ltac start f0 := apply ev_step; exists f0; intros f Hf; cbn [Parse.PB].
Lemma expect_ok t a ts k : t <> EOFt -> expect t ((t, a) :: ts) k = k ts.
Proof. intros H. unfold expect. cbn [tk tl]. rewrite Z.eqb_refl, (proj2 (Z.eqb_neq _ _)) by assumption. reflexivity. Qed.

(* ---- the levels at which a token continues an expression ---- *)
Definition level_ops (k : nat) : list Z :=
  match k with
  | 0%nat => [LBRACK; LPAR; DOT; ARROW; PLUS_PLUS; MINUS_MINUS; STRING]
  | 11%nat => [QUEST]
  | 12%nat => assign_ops
  | 13%nat => [COMMA]
  | k => binops k
  end.
Definition follow (k : nat) (ts : list token) : Prop := forall j, (j <= k)%nat -> ~ In (tk ts) (level_ops j).
Lemma follow_le j k ts : (j <= k)%nat -> follow k ts -> follow j ts.
Proof. intros H F i Hi. apply F. lia. Qed.
Definition followb (k : nat) (t : Z) : bool := forallb (fun j => negb (existsb (Z.eqb t) (level_ops j))) (seq 0 (S k)).
Lemma followb_ok k t a ts : followb k t = true -> follow k ((t, a) :: ts).
Proof.
  intros H j Hj Hin. unfold followb in H. rewrite forallb_forall in H.
  specialize (H j). rewrite in_seq in H. specialize (H ltac:(lia)). cbn [tk] in Hin. rewrite exb_true in H by assumption. discriminate.
Qed.
Lemma follow_binop k t a ts : (k < 10)%nat -> In t (binops (S k)) -> follow k ((t, a) :: ts).
Proof.
  intros Hk Hin. apply followb_ok.
  do 10 (destruct k as [|k]; [cbn [binops In] in Hin; repeat (destruct Hin as [<-|Hin]; [reflexivity|]); contradiction|]). lia.
Qed.
Lemma follow_assign k t a ts : (k <= 11)%nat -> In t assign_ops -> follow k ((t, a) :: ts).
Proof.
  intros Hk Hin. apply (follow_le k 11); [assumption|]. apply followb_ok. unfold assign_ops in Hin. cbn [In] in Hin.
  repeat (destruct Hin as [<-|Hin]; [reflexivity|]). contradiction.
Qed.
Lemma follow_bin k j ts : (S j <= k)%nat -> (S j <= 10)%nat -> follow k ts -> existsb (Z.eqb (tk ts)) (binops (S j)) = false.
Proof.
  intros H1 H2 F. apply exb_false. specialize (F (S j) H1).
  do 10 (destruct j as [|j]; [exact F|]). lia.
Qed.

Ltac fsolve := first [assumption | apply followb_ok; reflexivity | eapply follow_le; [|eassumption]; lia].

(* ---- what "parse a unary expression here" means to its three callers ---- *)
Definition UP (ts : list token) (v : glo) (r : res * st) : Prop :=
  (tk ts = LPAR -> is_type_starter (tk (tl ts)) = false /\
     exists e0 ts0 v0, ev NParen (tl ts) v (RE e0, (ts0, v0)) /\ ev (NPost e0) ts0 v0 r) /\
  (tk ts <> LPAR -> ev NUnary ts v r).

Lemma eqb_ne a b : a <> b -> (a =? b) = false. Proof. apply Z.eqb_neq. Qed.
Lemma tk_cons ts t : tk ts = t -> t <> EOFt -> exists a r, ts = (t, a) :: r.
Proof. destruct ts as [|[t' a] r]; cbn [tk]; [congruence|]. intros -> _. eauto. Qed.

Lemma UP_cast ts v r : UP ts v r -> ev NCast ts v r.
Proof.
  intros [H1 H2]. destruct (Z.eq_dec (tk ts) LPAR) as [E|E].
  - destruct (H1 E) as (Ht & e0 & ts0 & v0 & [f1 E1] & [f2 E2]). start (Nat.max f1 f2).
    rewrite E, Z.eqb_refl, Ht, E1 by lia. cbn [ebind]. apply E2. lia.
  - destruct (H2 E) as [f1 E1]. start f1. rewrite eqb_ne by assumption. auto.
Qed.
Lemma UP_unary ts v r : UP ts v r -> ev NUnary ts v r.
Proof.
  intros [H1 H2]. destruct (Z.eq_dec (tk ts) LPAR) as [E|E]; [|auto].
  destruct (H1 E) as (Ht & e0 & ts0 & v0 & [f1 E1] & [f2 E2]).
  destruct (tk_cons _ _ E ltac:(discriminate)) as (a & rr & ->).
  start (S (Nat.max f1 f2)). tst. destruct f as [|f]; [lia|].
  rewrite (P_S f NPrim). cbn [Parse.PB]. change (is_leaf LPAR) with false. tst. rewrite E1 by lia. cbn [ebind]. apply E2. lia.
Qed.
Lemma UP_sizeof a ts v e ts' v' : UP ts v (RE e, (ts', v')) -> ev NUnary ((SIZEOF_KW, a) :: ts) v (RE (new_ast1 SIZEOF_KW e), (ts', v')).
Proof.
  intros [H1 H2]. destruct (Z.eq_dec (tk ts) LPAR) as [E|E].
  - destruct (H1 E) as (Ht & e0 & ts0 & v0 & [f1 E1] & [f2 E2]). start (Nat.max f1 f2). tst.
    rewrite E, Z.eqb_refl, Ht, E1 by lia. cbn [ebind]. rewrite E2 by lia. reflexivity.
  - destruct (H2 E) as [f1 E1]. start f1. tst. rewrite eqb_ne by assumption. rewrite E1 by lia. reflexivity.
Qed.

(* ---- declaration specifiers ---- *)
Notation specs_loop := (specs_loop sh typedefs).
Lemma specs_loop_le f : forall g ty q sc ts r, (f <= g)%nat -> specs_loop f ty q sc ts = Some r -> specs_loop g ty q sc ts = Some r.
Proof.
  induction f as [|f IH]; intros g ty q sc ts r Hg H; [discriminate|]. destruct g as [|g]; [lia|].
  assert (K : forall ty q sc ts, specs_loop f ty q sc ts = Some r -> specs_loop g ty q sc ts = Some r) by (intros; apply IH; [lia|assumption]).
  revert H. cbn [Parse.specs_loop]. destruct ts as [|[t v] ts]; [auto|].
  repeat match goal with
  | |- (if ?b then _ else _) = _ -> _ => destruct b
  | |- (match ty with _ => _ end) = _ -> _ => destruct ty
  end; try discriminate; try apply K; auto.
  - match goal with |- context [parse_type_specifier ?a ?b] => destruct (parse_type_specifier a b) as [[s|] r'] end; [apply K|discriminate].
  - destruct ts as [|[t' v'] ts]; [|destruct ((t' =? IDENTIFIER) || (t' =? TYPE))];
      (destruct (tk _ =? LBRACE); [discriminate|apply K]).
  - destruct (typedefs v); [apply K|discriminate].
Qed.

Definition nospec (t : Z) : Prop := ~ In t [CHAR_KW; INT_KW; VOID_KW; SHORT_KW; SIGNED_KW; UNSIGNED_KW; LONG_KW; LBRACE].

Ltac neqs H := cbn [In] in H; repeat match type of H with ~ (?a \/ ?b) => apply Decidable.not_or in H; let K := fresh "N" in destruct H as [K H] end.

Lemma tspec_stop ts : nospec (tk ts) -> parse_type_specifier sh ts = (None, ts).
Proof.
  destruct ts as [|[t v] ts]; [reflexivity|]. intros H. unfold nospec in H. cbn [tk] in H. neqs H.
  cbn [Parse.parse_type_specifier]. rewrite !eqb_ne by congruence. reflexivity.
Qed.
Lemma no_int ts : nospec (tk ts) -> (tk ts =? INT_KW) = false /\ (tk ts =? LONG_KW) = false.
Proof. intros H. unfold nospec in H. neqs H. rewrite !eqb_ne by congruence. auto. Qed.

Lemma core_tspec ts b rest : In (map fst ts, b) (basic sh) -> nospec (tk rest) ->
  parse_type_specifier sh (ts ++ rest) = (Some b, rest) /\
  In (tk ts) [CHAR_KW; INT_KW; VOID_KW; SHORT_KW; SIGNED_KW; UNSIGNED_KW; LONG_KW].
Proof.
  intros H Hr. pose proof (no_int rest Hr) as [N1 N2]. pose proof (tspec_stop rest Hr) as N3.
  unfold basic, int_spellings in H. cbn [map app fst snd] in H.
  assert (Hin : forall l, In (map fst ts, b) l -> (forall k b', In (k, b') l -> map fst ts = k -> b = b' ->
     parse_type_specifier sh (ts ++ rest) = (Some b, rest) /\ In (tk ts) [CHAR_KW; INT_KW; VOID_KW; SHORT_KW; SIGNED_KW; UNSIGNED_KW; LONG_KW]) ->
     parse_type_specifier sh (ts ++ rest) = (Some b, rest) /\ In (tk ts) [CHAR_KW; INT_KW; VOID_KW; SHORT_KW; SIGNED_KW; UNSIGNED_KW; LONG_KW]).
  { intros l Hl K. eapply K; eauto. }
  eapply Hin; [exact H|]. clear H Hin. intros k b' H Ek ->.
  destruct sh eqn:Esh; cbn [app In] in H;
  repeat match goal with
  | H : _ \/ _ |- _ => destruct H as [H|H]
  | H : False |- _ => contradiction
  | H : (_, _) = (_, _) |- _ => injection H as <- <-
  end;
  repeat match goal with
  | H : map fst ?l = [] |- _ => destruct l; [clear H|discriminate H]
  | H : map fst ?l = _ :: _ |- _ => destruct l as [|[? ?] l]; [discriminate H|]; cbn [map fst] in H; injection H as -> H
  end;
  (split; [cbn [app Parse.parse_type_specifier]; tst; rewrite ?N1, ?N2, ?N3; tst; rewrite ?N1, ?N2, ?N3; reflexivity
          |cbn [tk]; apply existsb_In_Z; vm_compute; reflexivity]).
Qed.

Lemma loop_quals f q1 : quals q1 -> forall ty q sc rest,
  specs_loop (length q1 + f) ty q sc (q1 ++ rest) = specs_loop f ty (fold_left (fun q t => Z.lor q (MK_TYPE_SPECIFIER (fst t))) q1 q) sc rest.
Proof.
  induction 1 as [|[t x] l Ht Hq IH]; intros ty q sc rest; [reflexivity|].
  cbn [length Nat.add app fold_left fst]. cbn [Parse.specs_loop]. cbn [fst] in Ht.
  destruct Ht as [-> | ->]; tst; rewrite IH; reflexivity.
Qed.
Lemma loop_stop f ty q sc rest : is_type_starter (tk rest) = false -> specs_loop (S f) ty q sc rest = Some (ty, q, sc, rest).
Proof.
  destruct rest as [|[t x] rest]; [reflexivity|]. intros H. unfold is_type_starter in H. cbn [tk existsb] in H.
  repeat (apply orb_false_iff in H; let K := fresh "K" in destruct H as [K H]).
  cbn [Parse.specs_loop existsb]. rewrite ?K, ?K0, ?K1, ?K2, ?K3, ?K4, ?K5, ?K6, ?K7, ?K8, ?K9, ?K10, ?K11, ?K12, ?K13, ?K14, ?K15, ?K16, ?K17, ?K18, ?K19. reflexivity.
Qed.
Lemma starter_nospec t : is_type_starter t = false -> t <> LBRACE -> nospec t.
Proof.
  intros H Hb Hin. unfold nospec in Hin. cbn [In] in Hin.
  repeat (destruct Hin as [<-|Hin]; [try discriminate H; congruence|]). contradiction.
Qed.
Lemma loop_core f c b : core sh typedefs c b -> forall q sc rest, nospec (tk rest) ->
  specs_loop (S f) None q sc (c ++ rest) = specs_loop f (Some b) q sc rest.
Proof.
  destruct 1 as [ts b H|x b H|k a t x Hk Ht]; intros q sc rest Hr.
  - destruct (core_tspec ts b rest H Hr) as [E Hin].
    destruct ts as [|[t x] ts]; [cbn in Hin; intuition discriminate|]. cbn [tk] in Hin. cbn [app] in E |- *.
    cbn [Parse.specs_loop]. rewrite E. cbn [In] in Hin.
    repeat (destruct Hin as [<-|Hin]; [tst; reflexivity|]). contradiction.
  - cbn [app Parse.specs_loop]. tst. rewrite H. reflexivity.
  - cbn [app Parse.specs_loop]. assert (Hb : (tk rest =? LBRACE) = false) by (apply eqb_ne; intros E; apply Hr; rewrite E; cbn; tauto).
    cbn [In] in Hk. destruct Ht as [-> | ->]; repeat (destruct Hk as [<-|Hk]; [tst; rewrite Hb; reflexivity|]); contradiction.
Qed.

Lemma core_starter c b : core sh typedefs c b -> is_type_starter (tk c) = true /\ c <> [].
Proof.
  destruct 1 as [ts b H|x b H|k a t x Hk Ht].
  - destruct (core_tspec ts b [] H) as [_ Hin]; [cbn; unfold nospec; cbn; intuition discriminate|].
    split; [|intros ->; cbn in Hin; intuition discriminate]. cbn [In] in Hin.
    repeat (destruct Hin as [<-|Hin]; [reflexivity|]). contradiction.
  - split; [reflexivity|discriminate].
  - split; [|discriminate]. cbn [tk In] in *. repeat (destruct Hk as [<-|Hk]; [reflexivity|]). contradiction.
Qed.

Lemma tk_app a b : a <> [] -> tk (a ++ b) = tk a. Proof. destruct a as [|[]]; [congruence|reflexivity]. Qed.
Lemma specs_starter ts b rest : specs sh typedefs ts b -> is_type_starter (tk (ts ++ rest)) = true /\ ts <> [].
Proof.
  intros H. destruct H as [q1 c q2 b0 H1 H2 Hc _]. destruct (core_starter _ _ Hc) as [S1 S2].
  destruct q1 as [|[t x] q1].
  - cbn [app]. rewrite <- app_assoc, tk_app by assumption. split; [assumption|]. destruct c; [congruence|discriminate].
  - inversion H1 as [|? ? Ht _]; subst. cbn [fst] in Ht. split; [|discriminate]. cbn [app tk]. destruct Ht as [-> | ->]; reflexivity.
Qed.
Lemma specs_ok ts b rest : specs sh typedefs ts b -> is_type_starter (tk rest) = false -> tk rest <> LBRACE ->
  parse_declaration_specifiers sh typedefs (ts ++ rest) = Some (b, 0, rest).
Proof.
  intros H Hr Hr2. destruct H as [q1 c q2 b H1 H2 Hc Hb]. unfold parse_declaration_specifiers.
  destruct (core_starter _ _ Hc) as [_ Hne].
  assert (E : specs_loop (length q1 + S (length q2 + 1)) None 0 0 ((q1 ++ c ++ q2) ++ rest) = Some (Some b, qbits (q1 ++ q2), 0, rest)).
  { rewrite <- !app_assoc, loop_quals by assumption. rewrite (loop_core _ _ _ Hc).
    - rewrite loop_quals by assumption. rewrite loop_stop by assumption. unfold qbits. rewrite fold_left_app. reflexivity.
    - destruct q2 as [|[t x] q2]; [apply starter_nospec; assumption|]. inversion H2 as [|? ? Ht _]; subst. cbn [fst app tk] in *.
      unfold nospec. cbn [In]. destruct Ht as [-> | ->]; intuition discriminate. }
  eapply specs_loop_le in E; [rewrite E|].
  - unfold qualify. destruct (Z.eqb_spec (qbits (q1 ++ q2)) 0) as [Eq|Eq]; [reflexivity|].
    destruct Hb as [Hb1 Hb2]; [intros X; apply Eq; rewrite X; reflexivity|].
    rewrite !eqb_ne by assumption. reflexivity.
  - rewrite !app_length. destruct c; [congruence|]. cbn [length]. lia.
Qed.

(* ---- types ---- *)
Definition ptrs (ls : list layer) : Prop := Forall (fun l => match l with LPtr _ => True | _ => False end) ls.
Lemma okty_drop ls l outer b : ptrs outer -> (forall c, l <> LPtr c) -> okty (ls ++ l :: outer) b -> okty (ls ++ outer) b.
Proof.
  intros Hp Hl. induction ls as [|x ls IH]; cbn [app].
  - destruct l; cbn [okty]; tauto.
  - destruct x as [c|n|ps vv]; cbn [okty]; auto. intros [H1 H2]. split; [|auto].
    destruct ls as [|y ls]; cbn [app] in *; [|exact H1].
    destruct l as [c|m|ps vv]; [exfalso; eapply Hl; reflexivity| |contradiction].
    destruct outer as [|y outer]; [cbn [okty] in H2; tauto|].
    inversion Hp as [|? ? Hy _]. destruct y; auto; contradiction.
Qed.

(* ---- the flag parse_param_list_is_variadic ---- *)
(* the globals after parsing [ts]: the variadic flag stays off without an ellipsis, the storage class is kept or reset by
   the specifiers of a type name or parameter *)
Definition has_spec (ts : list token) : Prop := exists t, In t ts /\ is_type_starter (fst t) = true.
Definition fl (ts : list token) (v v' : glo) : Prop :=
  (~ has ELLIPSIS ts -> fst v = false -> fst v' = false) /\ (snd v' = snd v \/ (snd v' = 0 /\ has_spec ts)).
Lemma fl_refl ts v : fl ts v v.
Proof. split; auto. Qed.
Lemma fl_mono a b v w : incl a b -> fl a v w -> fl b v w.
Proof.
  intros H [F1 F2]. split.
  - intros N. apply F1. intros K. apply N. unfold has in *. apply in_map_iff in K as (x & E & K). apply in_map_iff. exists x. auto.
  - destruct F2 as [F2|[F2 (t & K & E)]]; [left; assumption|]. right. split; [assumption|]. exists t. auto.
Qed.
Lemma fl_trans ts v w x : fl ts v w -> fl ts w x -> fl ts v x.
Proof.
  intros [A1 A2] [B1 B2]. split; [auto|].
  destruct B2 as [B2|B2]; [|right; assumption]. destruct A2 as [A2|[A2 K]]; [left; congruence|]. right. split; [congruence|assumption].
Qed.
Lemma fl_zero ts v v' : fl ts v v' -> snd v = 0 -> snd v' = 0.
Proof. intros [_ [E|[E _]]] H; congruence. Qed.
Lemma specs_has ts b : specs sh typedefs ts b -> has_spec ts.
Proof.
  intros H. destruct (specs_starter ts b [] H) as [S1 Hne]. rewrite app_nil_r in S1. destruct ts as [|[t x] ts]; [congruence|].
  exists (t, x). split; [left; reflexivity|exact S1].
Qed.
Lemma fl_specs ts b v : specs sh typedefs ts b -> fl ts v (fst v, 0).
Proof. intros H. split; [auto|]. right. split; [reflexivity|]. eapply specs_has; eassumption. Qed.
Ltac incl_in := repeat (rewrite in_app_iff in * || cbn [In app] in *); tauto.
Ltac incl_t := let x := fresh in let H := fresh in intros x H; repeat (rewrite in_app_iff in * || cbn [In app] in *); tauto.
Ltac flt :=
  match goal with
  | |- fl _ ?v ?v => apply fl_refl
  | F : fl ?a ?v1 ?w |- fl ?t ?v ?w => apply (fl_trans t v v1 w); [clear F; flt|apply (fl_mono a t); [incl_t|exact F]]
  end.

(* ---- first tokens ---- *)
Definition expr_nt (g : gnt) : Prop :=
  match g with GType | GDeclr _ | GDirect _ | GParam | GPList | GParams => False | _ => True end.
Definition okfirst (ts : list token) : Prop :=
  ts <> [] /\ is_type_starter (tk ts) = false /\ tk ts <> RPAR /\ tk ts <> RBRACK.
Lemma okfirst_app a b : okfirst a -> okfirst (a ++ b).
Proof. intros (H1 & H2 & H3). unfold okfirst. rewrite tk_app by assumption. split; [|auto]. destruct a; [congruence|discriminate]. Qed.
Lemma okfirst_cons t a ts : negb (is_type_starter t) && negb (t =? RPAR) && negb (t =? RBRACK) = true -> okfirst ((t, a) :: ts).
Proof.
  intros H. apply andb_prop in H. destruct H as [H H3]. apply andb_prop in H. destruct H as [H1 H2].
  rewrite negb_true_iff in *. apply Z.eqb_neq in H2, H3. split; [discriminate|]. auto.
Qed.
Lemma leaf_cases t : is_leaf t = true -> In t [IDENTIFIER; CHARACTER; INTEGER; INTEGER_HEX; INTEGER_OCT; INTEGER_L; INTEGER_LL; INTEGER_U; INTEGER_UL; INTEGER_ULL].
Proof.
  unfold is_leaf, is_integer_tok. intros H. repeat (apply orb_prop in H; destruct H as [H|H]); apply Z.eqb_eq in H; subst t; cbn [In]; tauto.
Qed.
Lemma expr_first g ts o : G sh typedefs join g ts o -> expr_nt g -> okfirst ts.
Proof.
  induction 1; cbn [expr_nt] in *; intros HX; try contradiction; try (apply okfirst_app; auto; fail); auto;
    try (apply okfirst_cons; reflexivity).
  - apply leaf_cases in H. cbn [In] in H. repeat (destruct H as [<-|H]; [apply okfirst_cons; reflexivity|]). contradiction.
  - cbn [In] in H. repeat (destruct H as [<-|H]; [apply okfirst_cons; reflexivity|]). contradiction.
Qed.
Definition dfirst (ts : list token) : Prop := ts = [] \/ In (tk ts) [IDENTIFIER; STAR; LPAR; LBRACK].
Lemma declr_first g ts o : G sh typedefs join g ts o -> (exists b, g = GDeclr b \/ g = GDirect b) -> dfirst ts.
Proof.
  induction 1; intros [b0 [HX|HX]]; try discriminate HX; unfold dfirst; cbn [tk In]; auto 7;
  try (apply IHG; eauto; fail).
  all: try (destruct IHG1 as [-> |E]; [eauto|right; cbn [app tk In]; tauto|]).
  all: try (destruct IHG as [-> |E]; [eauto|right; cbn [app tk In]; tauto|]).
  all: right; destruct ts as [|[t x] ts]; [cbn [app tk In]; tauto|exact E].
Qed.

Definition dfollow (ts : list token) : Prop :=
  ~ In (tk ts) [IDENTIFIER; STAR; LPAR; LBRACK] /\ is_type_starter (tk ts) = false /\ tk ts <> LBRACE.
Definition dstop (ts : list token) : Prop :=
  ~ In (tk ts) [IDENTIFIER; STAR; LPAR; LBRACK] /\ is_type_starter (tk ts) = false.
Lemma dfollow_stop ts : dfollow ts -> dstop ts.
Proof. intros (A & B & _). split; assumption. Qed.
Lemma dfirst_stop ts rest : dfirst ts -> dstop rest -> is_type_starter (tk (ts ++ rest)) = false.
Proof.
  intros [->|H] (_ & F1); [auto|]. destruct ts as [|[t x] ts]; [cbn in H; intuition discriminate|]. cbn [app tk] in *.
  cbn [In] in H. repeat (destruct H as [<-|H]; [reflexivity|]). contradiction.
Qed.
Lemma dfirst_ok ts rest : dfirst ts -> dfollow rest -> is_type_starter (tk (ts ++ rest)) = false /\ tk (ts ++ rest) <> LBRACE.
Proof.
  intros [->|H] (_ & F1 & F2); [auto|]. destruct ts as [|[t x] ts]; [cbn in H; intuition discriminate|]. cbn [app tk] in *.
  cbn [In] in H. repeat (destruct H as [<-|H]; [split; [reflexivity|discriminate]|]). contradiction.
Qed.

(* ---- the induction ---- *)
Definition plain (n : nt) (k : nat) (ts : list token) (e : ast) : Prop :=
  forall rest v, follow k rest -> exists v', fl ts v v' /\ ev n (ts ++ rest) v (RE e, (rest, v')).
Definition M (g : gnt) (ts : list token) (o : obj) : Prop :=
  match g, o with
  | GPrim, OE e | GPost, OE e => forall rest v, tk rest <> STRING ->
      exists v', fl ts v v' /\ forall r, ev (NPost e) rest v' r -> UP (ts ++ rest) v r
  | GUnary, OE e => forall rest v, follow 0 rest -> exists v', fl ts v v' /\ UP (ts ++ rest) v (RE e, (rest, v'))
  | GCast, OE e => plain NCast 0 ts e
  | GBin O, OE e => plain (NBin 0) 0 ts e
  | GBin (S k), OE e => (S k <= 10)%nat -> forall rest v, follow k rest ->
      exists v', fl ts v v' /\ forall r, ev (NLoop (S k) e) rest v' r -> ev (NBin (S k)) (ts ++ rest) v r
  | GCond, OE e => plain NCond 11 ts e
  | GAssign, OE e => plain NAssign 12 ts e
  | GExpr, OE e => plain NComma 13 ts e
  | GArgs, OE e => plain NArgs 13 ts e
  | GType, OE t => forall rest v, dfollow rest -> exists v' b ls p ts1, fl ts v v' /\ snd v' = 0 /\ t = decl_node (Raw 0) ls b /\
      is_type_starter (tk (ts ++ rest)) = true /\ parse_declaration_specifiers sh typedefs (ts ++ rest) = Some (b, 0, ts1) /\
      ev (NDeclr true [] b) ts1 (fst v, 0) (RD (Raw 0) ls p, (rest, v'))
  | GDeclr abs, OD n ls => forall outer base rest v, ptrs outer -> okty (ls ++ outer) base -> dstop rest ->
      exists v', fl ts v v' /\ ev (NDeclr abs outer base) (ts ++ rest) v (RD n (ls ++ outer) (length ls), (rest, v'))
  | GDirect abs, OD n ls => forall outer base rest v, ptrs outer -> okty (ls ++ outer) base ->
      (ts = [] -> ~ In (tk rest) [IDENTIFIER; STAR; LPAR]) ->
      exists v', fl ts v v' /\ forall r,
        (forall vo, (vo = true -> ls = [] /\ outer = [] /\ get_op base = VOID_KW) ->
                    ev (NSuffix vo n (ls ++ outer) (length ls) base) rest v' r) ->
        ev (NDeclr abs outer base) (ts ++ rest) v r
  | GParam, OE d => has_spec ts /\ forall acc rest g r, tk rest = COMMA \/ tk rest = RPAR ->
      ev (NParams (acc ++ [d])) (if tk rest =? COMMA then tl rest else rest) (false, 0) r -> ev (NParams acc) (ts ++ rest) (false, g) r
  | GPList, OL l va => has_spec ts /\ forall acc a rest g, ev (NParams acc) (ts ++ (RPAR, a) :: rest) (false, g) (RL (acc ++ l), (rest, (va, 0)))
  | GParams, OL l va => forall a rest g, exists g', (g' = g \/ (g' = 0 /\ has_spec ts)) /\ ev (NParams []) (ts ++ (RPAR, a) :: rest) (false, g) (RL l, (rest, (va, g')))
  | _, _ => True
  end.

Lemma loop_done k e rest v : follow k rest -> (1 <= k <= 10)%nat -> ev (NLoop k e) rest v (RE e, (rest, v)).
Proof.
  intros F Hk. destruct k as [|k]; [lia|]. start 0%nat. rewrite (follow_bin (S k) k) by (try assumption; lia). reflexivity.
Qed.
(* level k, ready to use *)
Lemma bin_use k ts e : (k <= 10)%nat -> M (GBin k) ts (OE e) -> plain (NBin k) k ts e.
Proof.
  intros Hk H rest v F. destruct k as [|k]; [apply H; assumption|].
  destruct (H Hk rest v) as (v' & H1 & H2); [fsolve|]. exists v'. split; [assumption|]. apply H2. apply loop_done; [assumption|lia].
Qed.
Lemma bin_lift k ts e : (S k <= 10)%nat -> plain (NBin k) k ts e -> M (GBin (S k)) ts (OE e).
Proof.
  intros Hk H _ rest v F. destruct (H rest v F) as (v' & H1 & [f1 E1]). exists v'. split; [assumption|].
  intros r [f2 E2]. start (Nat.max f1 f2). rewrite E1 by lia. cbn [ebind]. apply E2. lia.
Qed.
Lemma post_done e rest v : follow 0 rest -> ev (NPost e) rest v (RE e, (rest, v)).
Proof.
  intros F. start 0%nat. specialize (F 0%nat ltac:(lia)). cbn [level_ops] in F. neqs F.
  rewrite !eqb_ne by congruence. reflexivity.
Qed.

Lemma follow0_string rest : follow 0 rest -> tk rest <> STRING.
Proof. intros F E. apply (F 0%nat); [lia|]. rewrite E. cbn; tauto. Qed.
Lemma UP_other ts v r : tk ts <> LPAR -> ev NUnary ts v r -> UP ts v r.
Proof. intros H1 H2. split; [congruence|auto]. Qed.

(* the alternatives of parse_unary_expression *)
Lemma unary_prim t x r v e rest v' q : ~ In t [PLUS_PLUS; MINUS_MINUS; AMP; STAR; PLUS; MINUS; TILDE; EXCL; SIZEOF_KW; LPAR] ->
  ev NPrim ((t, x) :: r) v (RE e, (rest, v')) -> ev (NPost e) rest v' q -> UP ((t, x) :: r) v q.
Proof.
  intros Ht [f1 E1] [f2 E2]. assert (Hl : t <> LPAR) by (intros ->; apply Ht; cbn; tauto).
  apply UP_other; [exact Hl|]. start (Nat.max f1 f2). cbn [tk].
  rewrite (exb_false t) by (intros H; apply Ht; cbn [In] in *; tauto).
  neqs Ht. rewrite !eqb_ne by congruence. rewrite E1 by lia. cbn [ebind]. apply E2. lia.
Qed.
Lemma nprim_leaf t x r v : is_leaf t = true -> ev NPrim ((t, x) :: r) v (RE (new_ast0 t x), (r, v)).
Proof. intros H. start 0%nat. rewrite H. reflexivity. Qed.
Lemma strings_ok xs : forall x rest, tk rest <> STRING ->
  strings join (map (fun y => (STRING, y)) xs ++ rest) x = (fold_left join xs x, rest).
Proof.
  induction xs as [|y xs IH]; intros x rest H; cbn [map app fold_left strings].
  - destruct rest as [|[t a] rest]; [reflexivity|]. cbn [strings]. cbn [tk] in H. rewrite eqb_ne by assumption. reflexivity.
  - rewrite Z.eqb_refl. apply IH. assumption.
Qed.

Ltac app_norm := rewrite <- ?app_assoc; cbn [app]; rewrite <- ?app_assoc; cbn [app].

Lemma params_flag g ts o : G sh typedefs join g ts o -> forall l, g = GPList \/ g = GParams -> o = OL l true -> has ELLIPSIS ts.
Proof.
  induction 1; intros l0 [HX|HX] E; try discriminate HX; try discriminate E; unfold has in *.
  - rewrite map_app, in_app_iff. cbn [map In fst]. tauto.
  - injection E as _ ->. rewrite map_app, in_app_iff. right. right. eapply IHG2; eauto.
  - eauto.
Qed.

Theorem complete : forall g ts o, G sh typedefs join g ts o -> M g ts o.
Proof.
  induction 1.
  - (* leaf *) intros rest v Hr. exists v. split; [flt|]. intros r Hp. cbn [app].
    eapply unary_prim; [|apply nprim_leaf; assumption|exact Hp].
    apply leaf_cases in H. cbn [In] in H. repeat (destruct H as [<-|H]; [cbn; intuition discriminate|]). contradiction.
  - (* strings *) intros rest v Hr. exists v. split; [flt|]. intros r Hp. cbn [app].
    eapply unary_prim; [cbn; intuition discriminate| |exact Hp].
    start 0%nat. change (is_leaf STRING) with false. tst. rewrite strings_ok by assumption. reflexivity.
  - (* parentheses *) intros rest v Hr.
    destruct (IHG ((RPAR, b) :: rest) v) as (v' & Hfl & [f1 E1]); [fsolve|].
    exists v'. split; [flt|]. intros r Hp. cbn [app]. app_norm. split; [|cbn [tk]; congruence].
    intros _. cbn [tk tl]. destruct (expr_first _ _ _ H I) as (Hne & Hts & _). split; [rewrite tk_app by assumption; assumption|].
    exists (new_ast1 PARENS e), rest, v'. split; [|assumption]. start f1. rewrite E1 by lia. cbn [ebind].
    rewrite expect_ok by discriminate. reflexivity.
  - (* postfix *) destruct o; exact IHG.
  - (* index *) intros rest v Hr. app_norm.
    destruct (IHG1 ((LBRACK, a) :: ts2 ++ (RBRACK, b) :: rest) v) as (v1 & F1 & K1); [discriminate|].
    destruct (IHG2 ((RBRACK, b) :: rest) v1) as (v2 & F2 & [f2 E2]); [fsolve|].
    exists v2. split; [flt|]. intros r [f3 E3]. apply K1. start (Nat.max f2 f3). tst. rewrite E2 by lia. cbn [ebind].
    rewrite expect_ok by discriminate. apply E3. lia.
  - (* call without arguments *) intros rest v Hr. app_norm.
    destruct (IHG ((LPAR, a) :: (RPAR, b) :: rest) v) as (v1 & F1 & K1); [discriminate|].
    exists v1. split; [flt|]. intros r [f3 E3]. apply K1. start f3. tst. apply E3. lia.
  - (* call *) intros rest v Hr. app_norm.
    destruct (IHG1 ((LPAR, a) :: ts2 ++ (RPAR, b) :: rest) v) as (v1 & F1 & K1); [discriminate|].
    destruct (IHG2 ((RPAR, b) :: rest) v1) as (v2 & F2 & [f2 E2]); [fsolve|].
    exists v2. split; [flt|]. intros r [f3 E3]. apply K1. start (Nat.max f2 f3). tst.
    destruct (expr_first _ _ _ H0 I) as (Hne & _ & Hrp & _). rewrite tk_app by assumption. rewrite (eqb_ne _ RPAR) by assumption.
    rewrite E2 by lia. cbn [ebind]. rewrite expect_ok by discriminate. apply E3. lia.
  - (* . *) intros rest v Hr. app_norm.
    destruct (IHG ((DOT, a) :: (IDENTIFIER, x) :: rest) v) as (v1 & F1 & K1); [discriminate|].
    exists v1. split; [flt|]. intros r [f3 E3]. apply K1. start f3. tst. apply E3. lia.
  - (* -> *) intros rest v Hr. app_norm.
    destruct (IHG ((ARROW, a) :: (IDENTIFIER, x) :: rest) v) as (v1 & F1 & K1); [discriminate|].
    exists v1. split; [flt|]. intros r [f3 E3]. apply K1. start f3. tst. apply E3. lia.
  - (* ++ *) intros rest v Hr. app_norm.
    destruct (IHG ((PLUS_PLUS, a) :: rest) v) as (v1 & F1 & K1); [discriminate|].
    exists v1. split; [flt|]. intros r [f3 E3]. apply K1. start f3. tst. apply E3. lia.
  - (* -- *) intros rest v Hr. app_norm.
    destruct (IHG ((MINUS_MINUS, a) :: rest) v) as (v1 & F1 & K1); [discriminate|].
    exists v1. split; [flt|]. intros r [f3 E3]. apply K1. start f3. tst. apply E3. lia.
  - (* last argument *) intros rest v Hr. destruct (IHG rest v) as (v1 & F1 & [f1 E1]); [fsolve|].
    exists v1. split; [flt|]. start f1. rewrite E1 by lia. cbn [ebind].
    rewrite eqb_ne; [reflexivity|]. intros E. apply (Hr 13%nat); [lia|]. rewrite E. cbn; tauto.
  - (* argument *) intros rest v Hr. app_norm.
    destruct (IHG1 ((COMMA, a) :: ts2 ++ rest) v) as (v1 & F1 & [f1 E1]); [fsolve|].
    destruct (IHG2 rest v1) as (v2 & F2 & [f2 E2]); [assumption|].
    exists v2. split; [flt|]. start (Nat.max f1 f2). rewrite E1 by lia. cbn [ebind]. tst. rewrite E2 by lia. reflexivity.
  - (* unary *) destruct o as [e| |]; try exact I. intros rest v Hr.
    destruct (IHG rest v) as (v1 & F1 & K1); [apply follow0_string; assumption|].
    exists v1. split; [assumption|]. apply K1. apply post_done. assumption.
  - (* ++u *) intros rest v Hr. destruct (IHG rest v Hr) as (v1 & F1 & K1). apply UP_unary in K1. destruct K1 as [f1 E1].
    exists v1. split; [flt|]. cbn [app]. apply UP_other; [discriminate|]. start f1. tst. rewrite E1 by lia. reflexivity.
  - (* --u *) intros rest v Hr. destruct (IHG rest v Hr) as (v1 & F1 & K1). apply UP_unary in K1. destruct K1 as [f1 E1].
    exists v1. split; [flt|]. cbn [app]. apply UP_other; [discriminate|]. start f1. tst. rewrite E1 by lia. reflexivity.
  - (* unary operator *) intros rest v Hr. destruct (IHG rest v Hr) as (v1 & F1 & [f1 E1]).
    exists v1. split; [flt|]. cbn [app].
    cbn [In] in H. repeat (destruct H as [<-|H]; [apply UP_other; [discriminate|]; start f1; tst; rewrite E1 by lia; reflexivity|]). contradiction.
  - (* sizeof e *) intros rest v Hr. destruct (IHG rest v Hr) as (v1 & F1 & K1).
    exists v1. split; [flt|]. cbn [app]. apply UP_other; [discriminate|]. apply UP_sizeof. assumption.
  - (* sizeof type *) intros rest v Hr. app_norm.
    destruct (IHG ((RPAR, c) :: rest) v) as (v1 & b0 & ls & p & ts1 & F1 & _ & -> & E1 & E2 & [f1 E3]).
    { unfold dfollow. cbn. repeat split; intuition discriminate. }
    exists v1. split; [flt|]. apply UP_other; [discriminate|]. start f1. tst. rewrite E1, E2, E3 by lia. cbn [dbind].
    rewrite expect_ok by discriminate. reflexivity.
  - (* cast = unary *) destruct o as [e| |]; try exact I. intros rest v Hr. destruct (IHG rest v Hr) as (v1 & F1 & K1).
    exists v1. split; [assumption|]. apply UP_cast. assumption.
  - (* cast *) intros rest v Hr. app_norm.
    destruct (IHG1 ((RPAR, b) :: ts2 ++ rest) v) as (v1 & b0 & ls & p & ts1 & F1 & _ & -> & E1 & E2 & [f1 E3]).
    { unfold dfollow. cbn. repeat split; intuition discriminate. }
    destruct (IHG2 rest v1 Hr) as (v2 & F2 & [f2 E4]).
    exists v2. split; [flt|]. start (Nat.max f1 f2). tst. rewrite E1, E2, E3 by lia. cbn [dbind].
    rewrite expect_ok by discriminate. rewrite E4 by lia. reflexivity.
  - (* level 0 *) destruct o as [e| |]; try exact I. intros rest v Hr. destruct (IHG rest v Hr) as (v1 & F1 & [f1 E1]).
    exists v1. split; [assumption|]. start f1. apply E1. lia.
  - (* level k in level k+1 *) destruct o as [e| |]; try exact I. intros Hk. apply bin_lift; [assumption| |assumption].
    apply bin_use; [lia|assumption].
  - (* binary operator *) intros Hk rest v Hr. app_norm.
    destruct (IHG1 Hk ((t, a) :: ts2 ++ rest) v) as (v1 & F1 & K1); [apply follow_binop; assumption|].
    apply bin_use in IHG2; [|lia]. destruct (IHG2 rest v1 Hr) as (v2 & F2 & [f2 E2]).
    exists v2. split; [flt|]. intros r [f3 E3]. apply K1. start (Nat.max f2 f3). cbn [tk tl Nat.pred]. rewrite exb_true by assumption.
    rewrite E2 by lia. cbn [ebind]. apply E3. lia.
  - (* conditional *) destruct o as [e| |]; try exact I. intros rest v Hr. apply bin_use in IHG; [|lia].
    destruct (IHG rest v) as (v1 & F1 & [f1 E1]); [fsolve|]. exists v1. split; [assumption|]. start f1. rewrite E1 by lia. cbn [ebind].
    rewrite eqb_ne; [reflexivity|]. intros E. apply (Hr 11%nat); [lia|]. rewrite E. cbn; tauto.
  - (* ?: *) intros rest v Hr. app_norm. apply bin_use in IHG1; [|lia].
    destruct (IHG1 ((QUEST, a) :: ts1 ++ (COLON, b) :: ts2 ++ rest) v) as (v1 & F1 & [f1 E1]); [fsolve|].
    destruct (IHG2 ((COLON, b) :: ts2 ++ rest) v1) as (v2 & F2 & [f2 E2]); [fsolve|].
    destruct (IHG3 rest v2 Hr) as (v3 & F3 & [f3 E3]).
    exists v3. split; [flt|]. start (Nat.max f1 (Nat.max f2 f3)). rewrite E1 by lia. cbn [ebind]. tst. rewrite E2 by lia. cbn [ebind].
    rewrite expect_ok by discriminate. rewrite E3 by lia. reflexivity.
  - (* assignment *) destruct o as [e| |]; try exact I. intros rest v Hr.
    destruct (IHG rest v) as (v1 & F1 & [f1 E1]); [fsolve|]. exists v1. split; [assumption|]. start f1. rewrite E1 by lia. cbn [ebind].
    rewrite exb_false; [reflexivity|]. apply (Hr 12%nat). lia.
  - (* = *) intros rest v Hr. app_norm.
    assert (HC : plain NCond 11 ts e).
    { intros rest0 v0 Hr0. destruct (IHG1 rest0 v0) as (v1 & F1 & K1); [fsolve|]. apply UP_cast in K1.
      exists v1. split; [assumption|].
      assert (HB : forall k, (k <= 10)%nat -> ev (NBin k) (ts ++ rest0) v0 (RE e, (rest0, v1))).
      { induction k as [|k IHk]; intros Hk.
        - destruct K1 as [f1 E1]. start f1. apply E1. lia.
        - destruct (IHk ltac:(lia)) as [f1 E1]. destruct (loop_done (S k) e rest0 v1) as [f2 E2]; [fsolve|lia|].
          start (Nat.max f1 f2). rewrite E1 by lia. cbn [ebind]. apply E2. lia. }
      destruct (HB 10%nat ltac:(lia)) as [f1 E1]. start f1. rewrite E1 by lia. cbn [ebind].
      rewrite eqb_ne; [reflexivity|]. intros E. apply (Hr0 11%nat); [lia|]. rewrite E. cbn; tauto. }
    destruct (HC ((t, a) :: ts2 ++ rest) v) as (v1 & F1 & [f1 E1]); [apply follow_assign; [lia|assumption]|].
    destruct (IHG2 rest v1 Hr) as (v2 & F2 & [f2 E2]).
    exists v2. split; [flt|]. start (Nat.max f1 f2). rewrite E1 by lia. cbn [ebind tk tl]. rewrite exb_true by assumption.
    rewrite E2 by lia. reflexivity.
  - (* expression *) destruct o as [e| |]; try exact I. intros rest v Hr.
    destruct (IHG rest v) as (v1 & F1 & [f1 E1]); [fsolve|]. exists v1. split; [assumption|]. start f1. rewrite E1 by lia. cbn [ebind].
    rewrite eqb_ne; [reflexivity|]. intros E. apply (Hr 13%nat); [lia|]. rewrite E. cbn; tauto.
  - (* , *) intros rest v Hr. app_norm.
    destruct (IHG1 ((COMMA, a) :: ts2 ++ rest) v) as (v1 & F1 & [f1 E1]); [fsolve|].
    destruct (IHG2 rest v1 Hr) as (v2 & F2 & [f2 E2]).
    exists v2. split; [flt|]. start (Nat.max f1 f2). rewrite E1 by lia. cbn [ebind]. tst. rewrite E2 by lia. reflexivity.
  - (* type name *) intros rest v Hr. app_norm.
    destruct (dfirst_ok ts2 rest) as [D1 D2]; [eapply declr_first; eauto|assumption|].
    destruct (IHG [] b rest (fst v, 0)) as (v1 & F1 & K1); [constructor|rewrite app_nil_r; assumption|apply dfollow_stop; assumption|].
    rewrite app_nil_r in K1. destruct (specs_starter ts b (ts2 ++ rest) H) as [S1 _].
    exists v1, b, ls, (length ls), (ts2 ++ rest). split; [|split; [apply (fl_zero _ _ _ F1); reflexivity|]].
    { apply (fl_trans _ v (fst v, 0) v1); [apply (fl_mono ts); [incl_t|eapply fl_specs; eassumption]|]. apply (fl_mono ts2); [incl_t|exact F1]. }
    split; [reflexivity|]. split; [assumption|]. split; [|assumption].
    apply specs_ok; assumption.
  - (* pointer *) intros outer base rest v Hp Ho Hr. rewrite <- app_assoc in Ho. cbn [app] in Ho.
    destruct (IHG (LPtr false :: outer) base rest v) as (v1 & F1 & [f1 E1]); [constructor; auto|assumption|assumption|].
    exists v1. split; [flt|]. cbn [app]. start f1. tst.
    assert (Hc : (tk (ts ++ rest) =? CONST_KW) = false).
    { apply eqb_ne. intros E. assert (D1 : is_type_starter (tk (ts ++ rest)) = false) by (apply dfirst_stop; [eapply declr_first; eauto|assumption]). rewrite E in D1. discriminate. }
    rewrite Hc, E1 by lia. cbn [dbind]. rewrite <- app_assoc. cbn [app].
    replace (length (ls ++ LPtr false :: outer) - length outer)%nat with (length (ls ++ [LPtr false])) by (rewrite !app_length; cbn [length]; lia). reflexivity.
  - (* const pointer *) intros outer base rest v Hp Ho Hr. rewrite <- app_assoc in Ho. cbn [app] in Ho.
    destruct (IHG (LPtr true :: outer) base rest v) as (v1 & F1 & [f1 E1]); [constructor; auto|assumption|assumption|].
    exists v1. split; [flt|]. cbn [app]. start f1. tst.
    rewrite E1 by lia. cbn [dbind]. rewrite <- app_assoc. cbn [app].
    replace (length (ls ++ LPtr true :: outer) - length outer)%nat with (length (ls ++ [LPtr true])) by (rewrite !app_length; cbn [length]; lia). reflexivity.
  - (* direct declarator *) intros outer base rest v Hp Ho Hr.
    destruct (IHG outer base rest v) as (v1 & F1 & K1); [assumption|assumption|intros _; destruct Hr as (Hr & _); intros X; apply Hr; cbn [In] in *; tauto|].
    exists v1. split; [assumption|]. apply K1. intros vo Hvo. start 0%nat. destruct Hr as (Hr & _). neqs Hr.
    rewrite !eqb_ne by congruence. reflexivity.
  - (* name *) intros outer base rest v Hp Ho _. exists v. split; [flt|]. intros r K. cbn [app].
    destruct (K (match outer with [] => get_op base =? VOID_KW | _ => false end)) as [f1 E1].
    { destruct outer; [|discriminate]. intros E. apply Z.eqb_eq in E. auto. }
    start f1. tst. apply E1. lia.
  - (* nothing *) intros outer base rest v Hp Ho Hr. specialize (Hr eq_refl). exists v. split; [flt|]. intros r K. cbn [app].
    destruct (K (match outer with [] => get_op base =? VOID_KW | _ => false end)) as [f1 E1].
    { destruct outer; [|discriminate]. intros E. apply Z.eqb_eq in E. auto. }
    start f1. destruct rest as [|[t x] rest]; [apply E1; lia|]. cbn [tk] in Hr. neqs Hr. rewrite !eqb_ne by congruence. apply E1. lia.
  - (* parenthesized declarator *) intros outer base rest v Hp Ho _. app_norm.
    destruct (IHG outer base ((RPAR, b) :: rest) v) as (v1 & F1 & [f1 E1]); [assumption|assumption| |].
    { unfold dstop. cbn. repeat split; intuition discriminate. }
    exists v1. split; [flt|]. intros r K.
    destruct (K (match ls ++ outer with [] => get_op base =? VOID_KW | _ => false end)) as [f2 E2].
    { destruct ls; [|discriminate]. destruct outer; [|discriminate]. intros E. apply Z.eqb_eq in E. auto. }
    start (Nat.max f1 f2). tst. rewrite E1 by lia. cbn [dbind]. rewrite expect_ok by discriminate. apply E2. lia.
  - (* array *) intros outer base rest v Hp Ho Hr. app_norm. rewrite <- app_assoc in Ho. cbn [app] in Ho.
    destruct (IHG1 outer base ((LBRACK, a) :: ts2 ++ (RBRACK, b) :: rest) v) as (v1 & F1 & K1);
      [assumption|eapply okty_drop; [eassumption| |eassumption]; discriminate|intros _; cbn; intuition discriminate|].
    destruct (IHG2 ((RBRACK, b) :: rest) v1) as (v2 & F2 & [f2 E2]); [fsolve|].
    exists v2. split; [flt|]. intros r K.
    apply K1. intros vo Hvo. destruct (K false ltac:(discriminate)) as [f3 E3]. start (Nat.max f2 f3). tst.
    assert (vo = false) as ->.
    { destruct vo; [|reflexivity]. destruct (Hvo eq_refl) as (-> & -> & Hv). cbn [app okty] in Ho. tauto. }
    destruct (expr_first _ _ _ H0 I) as (Hne & _ & _ & Hrb). rewrite tk_app by assumption. rewrite (eqb_ne _ RBRACK) by assumption.
    rewrite E2 by lia. cbn [ebind]. rewrite H1. rewrite expect_ok by discriminate.
    unfold insert_at. rewrite firstn_app, firstn_all, Nat.sub_diag, skipn_app, skipn_all, Nat.sub_diag. cbn [firstn skipn app].
    rewrite app_nil_r. rewrite <- ?app_assoc in E3; cbn [app] in E3. rewrite app_length in E3. cbn [length] in E3. rewrite Nat.add_1_r in E3. apply E3. lia.
  - (* array without size *) intros outer base rest v Hp Ho Hr. app_norm. rewrite <- app_assoc in Ho. cbn [app] in Ho.
    destruct (IHG outer base ((LBRACK, a) :: (RBRACK, b) :: rest) v) as (v1 & F1 & K1);
      [assumption|eapply okty_drop; [eassumption| |eassumption]; discriminate|intros _; cbn; intuition discriminate|].
    exists v1. split; [flt|]. intros r K.
    apply K1. intros vo Hvo. destruct (K false ltac:(discriminate)) as [f3 E3]. start f3. tst.
    assert (vo = false) as ->.
    { destruct vo; [|reflexivity]. destruct (Hvo eq_refl) as (-> & -> & Hv). cbn [app okty] in Ho. tauto. }
    unfold insert_at. rewrite firstn_app, firstn_all, Nat.sub_diag, skipn_app, skipn_all, Nat.sub_diag. cbn [firstn skipn app].
    rewrite app_nil_r. rewrite <- ?app_assoc in E3; cbn [app] in E3. rewrite app_length in E3. cbn [length] in E3. rewrite Nat.add_1_r in E3. apply E3. lia.
  - (* function *) intros outer base rest v0 Hp Ho Hr. app_norm. rewrite <- app_assoc in Ho. cbn [app] in Ho.
    destruct (IHG1 outer base ((LPAR, a) :: ts2 ++ (RPAR, b) :: rest) v0) as (v1 & F1 & K1);
      [assumption|eapply okty_drop; [eassumption| |eassumption]; discriminate|intros X; contradiction|].
    specialize (IHG2 b rest (snd v1)). destruct IHG2 as (g' & Hg & [f2 E2]).
    exists (v, g'). split.
    { split.
      - intros Hn _. cbn [fst]. destruct v; [|reflexivity]. exfalso. apply Hn. pose proof (params_flag _ _ _ H1 ps (or_intror eq_refl) eq_refl) as Hh.
        unfold has in *. rewrite map_app, in_app_iff. cbn [map fst In]. rewrite map_app, in_app_iff. tauto.
      - cbn [snd]. destruct F1 as [_ F1]. destruct Hg as [->|[-> (t & Ht & Hs)]].
        + destruct F1 as [F1|[F1 (t & Ht & Hs)]]; [left; assumption|]. right. split; [assumption|]. exists t. split; [incl_in|assumption].
        + right. split; [reflexivity|]. exists t. split; [incl_in|assumption]. }
    intros r K.
    apply K1. intros vo Hvo. destruct (K false ltac:(discriminate)) as [f3 E3]. start (Nat.max f2 f3). tst.
    rewrite E2 by lia. cbn [lbind].
    unfold insert_at. rewrite firstn_app, firstn_all, Nat.sub_diag, skipn_app, skipn_all, Nat.sub_diag. cbn [firstn skipn app].
    rewrite app_nil_r. rewrite <- ?app_assoc in E3; cbn [app] in E3. rewrite app_length in E3. cbn [length] in E3. rewrite Nat.add_1_r in E3. apply E3. lia.
  - (* parameter *) split.
    { destruct (specs_has ts b H) as (t & Ht & Hs). exists t. split; [incl_in|assumption]. }
    intros acc rest g r Hr [f1 E1]. app_norm.
    assert (HD : dfollow rest) by (unfold dfollow; destruct Hr as [-> | ->]; cbn; repeat split; intuition discriminate).
    destruct (dfirst_ok ts2 rest) as [D1 D2]; [eapply declr_first; eauto|assumption|].
    destruct (IHG [] b rest (false, 0)) as (v1 & F1 & K1); [constructor|rewrite app_nil_r; assumption|apply dfollow_stop; assumption|].
    rewrite app_nil_r in K1.
    assert (v1 = (false, 0)) as ->.
    { destruct v1 as [x y]. f_equal; [exact (proj1 F1 H3 eq_refl)|exact (fl_zero _ _ _ F1 eq_refl)]. }
    destruct K1 as [f2 E2].
    destruct (specs_starter ts b (ts2 ++ rest) H) as [S1 Hne].
    start (Nat.max f1 f2).
    assert (Hnr : tk (ts ++ ts2 ++ rest) <> RPAR) by (intros E; rewrite E in S1; discriminate).
    rewrite eqb_ne by assumption. destruct (ts ++ ts2 ++ rest) as [|t0 l0] eqn:El; [destruct ts; [congruence|discriminate]|].
    rewrite <- El in *. cbn [orb]. rewrite S1. rewrite (specs_ok ts b) by assumption. cbn [fst]. rewrite E2 by lia. cbn [dbind].
    rewrite (eqb_ne (get_op _)) by assumption. apply E1. lia.
  - (* one parameter *) destruct IHG as [HS IHG]. split; [exact HS|]. intros acc a rest g. apply IHG; [right; reflexivity|]. tst. start 0%nat. tst. rewrite expect_ok by discriminate. reflexivity.
  - (* parameter, ... *) destruct IHG as [HS IHG]. split.
    { destruct HS as (t & Ht & Hs). exists t. split; [incl_in|assumption]. }
    intros acc a0 rest g. app_norm. apply IHG; [left; reflexivity|]. tst. start 0%nat. tst.
    destruct (acc ++ [d]) eqn:E; [destruct acc; discriminate|]. rewrite <- E. rewrite expect_ok by discriminate. reflexivity.
  - (* parameter, parameters *) destruct IHG1 as [HS IHG1]. destruct IHG2 as [_ IHG2]. split.
    { destruct HS as (t & Ht & Hs). exists t. split; [incl_in|assumption]. }
    intros acc a0 rest g. app_norm. apply IHG1; [left; reflexivity|]. tst.
    specialize (IHG2 (acc ++ [d]) a0 rest 0). rewrite <- app_assoc in IHG2. exact IHG2.
  - (* () *) intros a rest g. exists g. split; [left; reflexivity|]. cbn [app]. start 0%nat. tst. rewrite expect_ok by discriminate. reflexivity.
  - (* (void) *) intros a0 rest g. exists 0. split; [right; split; [reflexivity|exists (VOID_KW, a); split; [left; reflexivity|reflexivity]]|]. cbn [app]. start 2%nat. tst.
    change (parse_declaration_specifiers sh typedefs ((VOID_KW, a) :: (RPAR, a0) :: rest)) with (Some (new_ast0 VOID_KW 0, 0, (RPAR, a0) :: rest)).
    cbv iota. destruct f as [|[|f]]; [lia|lia|]. rewrite P_S. cbn [Parse.PB]. tst. rewrite P_S. cbn [Parse.PB]. tst. cbn [dbind wrap fold_right].
    change (get_op (new_ast0 VOID_KW 0) =? VOID_KW) with true. tst. rewrite expect_ok by discriminate. reflexivity.
  - (* parameters *) intros a rest g. destruct IHG as [HS IHG]. exists 0. split; [right; split; [reflexivity|exact HS]|]. exact (IHG [] a rest g).
Qed.

(* ================= C14 ================= *)
(* the tokens that can continue an expression *)
Definition continuers : list Z :=
  [LBRACK; LPAR; DOT; ARROW; PLUS_PLUS; MINUS_MINUS; STRING; STAR; SLASHC; PERCENT; PLUS; MINUS; LSHIFT; RSHIFT;
   LT; GT; LT_EQ; GT_EQ; EQ_EQ; EXCL_EQ; AMP; CARET; BAR; AMP_AMP; BAR_BAR; QUEST;
   EQ; PLUS_EQ; MINUS_EQ; STAR_EQ; SLASH_EQ; PERCENT_EQ; LSHIFT_EQ; RSHIFT_EQ; AMP_EQ; CARET_EQ; BAR_EQ; COMMA].
Lemma follow_all rest : ~ In (tk rest) continuers -> follow 13 rest.
Proof.
  intros H j Hj Hin. apply H. unfold continuers.
  do 14 (destruct j as [|j]; [cbn [level_ops binops assign_ops In] in *; tauto|]). lia.
Qed.

(* Every expression of the C grammar, followed by a token that cannot continue it, is parsed to
   the tree the grammar assigns, and the parser stops exactly there. *)
Theorem c14_expression : forall ts e rest v,
  G sh typedefs join GExpr ts (OE e) -> ~ In (tk rest) continuers ->
  exists v', Parses NComma (ts ++ rest) v (RE e, (rest, v')).
Proof.
  intros ts e rest v H Hr. destruct (complete _ _ _ H rest v (follow_all _ Hr)) as (v' & _ & E).
  exists v'. apply ev_iff. assumption.
Qed.

Theorem c14_deterministic : forall n ts v r1 r2, Parses n ts v r1 -> Parses n ts v r2 -> r1 = r2.
Proof.
  intros n ts v r1 r2 [f1 E1] [f2 E2].
  apply (P_le _ (Nat.max f1 f2)) in E1; [|lia]. apply (P_le _ (Nat.max f1 f2)) in E2; [|lia]. congruence.
Qed.

(* In particular the grammar is unambiguous: precedence and associativity are determined. *)
Theorem c14_unambiguous : forall ts e1 e2,
  G sh typedefs join GExpr ts (OE e1) -> G sh typedefs join GExpr ts (OE e2) -> e1 = e2.
Proof.
  intros ts e1 e2 H1 H2.
  destruct (c14_expression ts e1 [] (false, 0) H1) as (v1 & P1); [cbn; intuition discriminate|].
  destruct (c14_expression ts e2 [] (false, 0) H2) as (v2 & P2); [cbn; intuition discriminate|].
  pose proof (c14_deterministic _ _ _ _ _ P1 P2) as E. congruence.
Qed.

(* ================= C15 ================= *)
(* A declarator (named or abstract) applied to a specifier gives the type C assigns: the layers of
   the grammar, innermost next to the specifier. *)
Theorem c15_declarator : forall abs ts name ls base rest v,
  G sh typedefs join (GDeclr abs) ts (OD name ls) -> okty ls base ->
  ~ In (tk rest) [IDENTIFIER; STAR; LPAR; LBRACK] -> is_type_starter (tk rest) = false ->
  exists p v', Parses (NDeclr abs [] base) (ts ++ rest) v (RD name ls p, (rest, v')).
Proof.
  intros abs ts name ls base rest v H Ho H1 H2.
  destruct (complete _ _ _ H [] base rest v) as (v' & _ & E); [constructor|rewrite app_nil_r; assumption|split; auto|].
  rewrite app_nil_r in E. exists (length ls), v'. apply ev_iff. assumption.
Qed.
(* ... and so does a whole parameter list, with its variadic mark *)
Theorem c15_parameters : forall ts l va a rest,
  G sh typedefs join GParams ts (OL l va) ->
  forall g, exists g', Parses (NParams []) (ts ++ (RPAR, a) :: rest) (false, g) (RL l, (rest, (va, g'))).
Proof. intros ts l va a rest H g. destruct (complete _ _ _ H a rest g) as (g' & _ & E). exists g'. apply ev_iff. exact E. Qed.
Theorem c15_specifiers : forall ts b rest, specs sh typedefs ts b -> is_type_starter (tk rest) = false -> tk rest <> LBRACE ->
  parse_declaration_specifiers sh typedefs (ts ++ rest) = Some (b, 0, rest).
Proof. exact specs_ok. Qed.

(* Where it fails (the restrictions R1-R3 of the grammar).
   R1: the abstract declarator "()" (a function) is taken for empty parentheses: "int ()" is int. *)
Theorem c15_abstract_function_refuted : forall base,
  Parses (NDeclr true [] base) [(LPAR, 0); (RPAR, 0); (RPAR, 0)] (false, 0) (RD (Raw 0) [] 0, ([(RPAR, 0)], (false, 0))).
Proof. intros base. exists 10%nat. reflexivity. Qed.
(* R2: "int (int)" is a syntax error. *)
Theorem c15_abstract_parameters_refuted : forall base r,
  ~ Parses (NDeclr true [] base) [(LPAR, 0); (INT_KW, 0); (RPAR, 0); (RPAR, 0)] (false, 0) r.
Proof.
  intros base r [f E]. apply (P_le _ (10 + f)) in E; [|lia]. cbv in E. discriminate.
Qed.
(* R3: the variadic mark of a parameter's function type leaks to the enclosing function:
   f(int ( *g)(int, ...), int x) is declared variadic. *)
Theorem c15_variadic_leak_refuted :
  exists l, Parses (NParams [])
    [(INT_KW, 0); (LPAR, 0); (STAR, 0); (IDENTIFIER, 1); (RPAR, 0); (LPAR, 0); (INT_KW, 0); (COMMA, 0); (ELLIPSIS, 0); (RPAR, 0);
     (COMMA, 0); (INT_KW, 0); (IDENTIFIER, 2); (RPAR, 0)] (false, 0) (RL l, ([], (true, 0))).
Proof. eexists. exists 20%nat. vm_compute. reflexivity. Qed.
End Mono.

(* Non-vacuity:  a = b + c * d - (e)  and  T * const ( *x[3])(int, int * ) *)
Section Examples.
Variables (typedefs : Z -> option ast) (join : Z -> Z -> Z).
Notation G := (G false typedefs join).
Definition id (x : Z) : token := (IDENTIFIER, x).
Definition pu (x : Z) : token := (x, 0).
Definition eid (x : Z) : ast := new_ast0 IDENTIFIER x.
Lemma ex_id x : G GUnary [id x] (OE (eid x)).
Proof. apply g_unary, g_post, g_leaf. reflexivity. Qed.
Lemma ex_up k ts e : G GUnary ts (OE e) -> G (GBin k) ts (OE e).
Proof. intros H. induction k as [|k IH]; [apply g_bin0, g_cast0, H|apply g_binS, IH]. Qed.
Lemma ex_lift j k ts e : (j <= k)%nat -> G (GBin j) ts (OE e) -> G (GBin k) ts (OE e).
Proof. induction 1; [auto|]. intros. apply g_binS. auto. Qed.
Example c14_example :
  G GExpr [id 1; pu EQ; id 2; pu PLUS; id 3; pu STAR; id 4; pu MINUS; pu LPAR; id 5; pu RPAR]
    (OE (new_ast2 EQ (eid 1) (new_ast2 MINUS (new_ast2 PLUS (eid 2) (new_ast2 STAR (eid 3) (eid 4))) (new_ast1 PARENS (eid 5))))).
Proof.
  apply g_expr0. apply (g_assign false typedefs join [id 1]); [apply ex_id|cbn; tauto|].
  apply g_assign0, g_cond0. apply (ex_lift 2); [lia|].
  apply (g_bin false typedefs join 1 [id 2; pu PLUS; id 3; pu STAR; id 4]); [lia| |cbn; tauto|].
  - apply (g_bin false typedefs join 1 [id 2]); [lia|apply ex_up, ex_id|cbn; tauto|].
    apply (g_bin false typedefs join 0 [id 3]); [lia|apply ex_up, ex_id|cbn; tauto|apply ex_up, ex_id].
  - apply ex_up, g_unary, g_post. apply (g_paren false typedefs join 0 [id 5]).
    apply g_expr0, g_assign0, g_cond0, ex_up, ex_id.
Qed.
Lemma ex_int : specs false typedefs [pu INT_KW] (new_ast0 INT_KW 0).
Proof. apply (Specs false typedefs [] [pu INT_KW] [] (new_ast0 INT_KW 0)); [constructor|constructor|apply core_basic; vm_compute; tauto|intros X; exfalso; apply X; reflexivity]. Qed.
Example c15_example :
  exists ps, G (GDeclr false) [pu STAR; pu CONST_KW; pu LPAR; pu STAR; id 7; pu LBRACK; (INTEGER, -3); pu RBRACK; pu RPAR; pu LPAR; pu INT_KW; pu COMMA; pu INT_KW; pu STAR; pu RPAR]
      (OD (eid 7) [LArr 3; LPtr false; LFun (list_node ps) false; LPtr true]).
Proof.
  exists [decl_node (Raw 0) [] (new_ast0 INT_KW 0); decl_node (Raw 0) [LPtr false] (new_ast0 INT_KW 0)].
  match goal with |- G _ _ (OD _ [_; _; ?l; _]) => apply (g_cptr false typedefs join false 0 0 [pu LPAR; pu STAR; id 7; pu LBRACK; (INTEGER, -3); pu RBRACK; pu RPAR; pu LPAR; pu INT_KW; pu COMMA; pu INT_KW; pu STAR; pu RPAR] (eid 7) [LArr 3; LPtr false; l]) end.
  apply g_direct.
  apply (g_fun false typedefs join false [pu LPAR; pu STAR; id 7; pu LBRACK; (INTEGER, -3); pu RBRACK; pu RPAR] (eid 7) [LArr 3; LPtr false] 0 [pu INT_KW; pu COMMA; pu INT_KW; pu STAR] _ false 0).
  - apply (g_dparen false typedefs join false 0 [pu STAR; id 7; pu LBRACK; (INTEGER, -3); pu RBRACK]); [|discriminate].
    apply (g_ptr false typedefs join false 0 _ (eid 7) [LArr 3]). apply g_direct.
    apply (g_array false typedefs join false [id 7] (eid 7) [] 0 [(INTEGER, -3)] (new_ast0 INTEGER (-3)) 3 0); [apply g_name| |reflexivity].
    apply g_assign0, g_cond0, ex_up, g_unary, g_post, g_leaf. reflexivity.
  - discriminate.
  - apply g_params. apply (g_plist false typedefs join [pu INT_KW] _ 0 [pu INT_KW; pu STAR]); [|apply g_plist1].
    + apply (g_param false typedefs join [pu INT_KW] _ []); [apply ex_int|apply g_direct, g_none|exact I|discriminate|cbn; tauto].
    + apply (g_param false typedefs join [pu INT_KW] _ [pu STAR] _ [LPtr false]); [apply ex_int| |exact I|discriminate|cbn; intuition discriminate].
      apply (g_ptr false typedefs join true 0 [] _ []). apply g_direct, g_none.
Qed.
End Examples.
