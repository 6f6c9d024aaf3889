(** * C10, C12: macro expansion and macro arguments *)
From Coq Require Import ZArith List Lia Bool Arith.
From Verif Require Import Macro MacroProof MacroProof2.
Import ListNotations.
Local Notation length := List.length.

(** ** From the file *)
Definition source (t : mtok) : Prop := match t with TT _ _ | TId _ => True | _ => False end.
Section File.
  Variable tab : mtable.
  Lemma file_tt ex c v r : evt tab ex (file_state (TT c v :: r)) (RTok (TT c v) (file_state r)).
  Proof. apply evt_S. exists 0. intros f _. reflexivity. Qed.
  Lemma file_id ex n r : tab n = None \/ ex = false -> evt tab ex (file_state (TId n :: r)) (RTok (TId n) (file_state r)).
  Proof. intros H. apply evt_S. exists 0. intros f _. rewrite gt_eq. cbn. destruct (tab n); [|reflexivity]. destruct H as [H| ->]; [discriminate|reflexivity]. Qed.
  Lemma file_eof ex : evt tab ex (file_state []) (RTok TEof (file_state [])).
  Proof. apply evt_S. exists 0. intros f _. reflexivity. Qed.
  Lemma file_raw t r : source t -> evt tab false (file_state (t :: r)) (RTok t (file_state r)).
  Proof. destruct t; cbn; try contradiction; intros _; [apply file_id; now right|apply file_tt]. Qed.
  Lemma file_raws ts : forall r, Forall source ts -> emits tab false (file_state (ts ++ r)) ts (file_state r).
  Proof. induction ts as [|t ts IH]; intros r F; inversion F; subst; [apply em_nil, runs_refl|]. cbn [app]. eapply em_cons; [now apply file_raw|]. now apply IH. Qed.
End File.

Lemma join_source l : Forall (Forall source) l -> Forall source (join l).
Proof.
  induction 1 as [|a l A L IH]; cbn; [constructor|]. destruct l; [exact A|]. apply Forall_app; split; auto. constructor; [exact I|exact IH].
Qed.
Fixpoint flat_source (it : item) {struct it} : Forall source (flat it).
Proof.
  destruct it as [c v|n|n|n args]; cbn [flat]; repeat (constructor; [exact I|]); try constructor.
  apply Forall_app; split; [|repeat constructor]. apply join_source.
  induction args as [|a args IHa]; cbn [map]; constructor; [|exact IHa].
  induction a as [|it a IH]; cbn [flat_map]; [constructor|]. apply Forall_app; split; [apply flat_source|exact IH].
Qed.
Lemma flats_source its : Forall source (flats its).
Proof. induction its as [|it its IH]; cbn; [constructor|]. apply Forall_app; split; [apply flat_source|exact IH]. Qed.
Lemma join_flats args : Forall source (join (map flats args)).
Proof. apply join_source. induction args; cbn; constructor; auto. apply flats_source. Qed.

Section C10.
  Variable defs : name -> option mdef.
  Let tab := table_of defs.
  Lemma file_main b scan H rho its ts : expand defs b scan H rho its ts -> b <= 59 -> scan = true -> H = [] -> rho = no_bind ->
    forall r, emits tab true (file_state (flats its ++ r)) ts (file_state r).
  Proof.
    induction 1 as [b scan H rho|b scan H rho it its t ts X XS IH]; intros B -> -> -> r; [apply em_nil, runs_refl|].
    change (flats (it :: its)) with (flat it ++ flats its). rewrite <- app_assoc. eapply emits_app; [|apply IH; auto]. clear IH XS. generalize (flats its ++ r). clear r. intros r.
    inversion X as [b0 sc H0 rho0 c v|b0 sc H0 rho0 n NM RN|b0 sc H0 rho0 n v RN|b0 H0 rho0 n IN|b0 sc H0 rho0 n body its' ts' NI RN DF FL XB|b0 H0 rho0 n args vs IN|b0 sc H0 rho0 n args vs ps body its' ts' NI RN DF ND XA AV AR FL XB]; subst; try contradiction; try discriminate.
    - cbn. apply emits_one, file_tt.
    - cbn. apply emits_one, file_id. left. unfold tab, table_of. unfold is_macro in NM. destruct (defs n); [exfalso; apply NM; discriminate|reflexivity].
    - cbn [flat app]. rewrite <- (app_nil_r t). eapply emits_runs.
      { unfold file_state. eapply try_obj; [| | |apply gt_macro_file; [reflexivity|unfold tab, table_of; rewrite DF; reflexivity]]; [reflexivity|reflexivity|cbn; lia]. }
      cbn [m_toks handle_define d_params d_body]. eapply emits_app; [|apply em_nil, step_pop]. unfold read_macro_tokens. rewrite <- (app_nil_r (map _ (flats its'))).
      eapply (proj1 (main defs) _ _ _ _ _ _ XB [] [] (Some n) [Ctx [] [] None] [] r true [n] 0); [|exact (env_none defs 0 [n])|intros ? ? Y; discriminate].
      repeat split; try discriminate.
      + intros m M. exact M.
      + intros m M. exact M.
      + intros m M. exact M.
      + cbn [List.length]. lia.
      + cbn [List.length]. right. lia.
    - change (flat (ICall n args)) with (TId n :: LP :: join (map flats args) ++ [RP]). cbn [app]. rewrite <- app_assoc. cbn [app].
      destruct AR as (AR1 & AR2 & AR3). destruct AV as (AV1 & AV2 & AV3). assert (LA : length args = length vs). { rewrite map_length in AR2. congruence. }
      rewrite <- (app_nil_r t). eapply emits_runs.
      { unfold file_state. eapply (try_call tab true n (handle_define (Def (Some ps) (flats its'))) _ (Ctx [] [] None) [] _ _ (map flats args) (Ctx [] [] None) [] r);
          [cbn; now rewrite AR2|reflexivity|cbn; lia|apply file_tt| |apply gt_macro_file; [reflexivity|unfold tab, table_of; rewrite DF; reflexivity]].
        eapply args_done; [apply file_raws, join_flats|apply file_tt|exact AR1|exact AR3]. }
      cbn [m_toks handle_define d_params d_body]. eapply emits_app; [|apply em_nil, step_pop]. unfold read_macro_tokens. rewrite <- (app_nil_r (map _ (flats its'))).
      eapply (proj1 (main defs) _ _ _ _ _ _ XB (rev ps) (rev (map flats args)) (Some n) [Ctx [] [] None] [] r true [n] (pred b0)).
      + repeat split; try discriminate.
        * intros m M. exact M.
        * intros m M. exact M.
        * intros m M. exact M.
        * cbn [List.length]. lia.
        * cbn [List.length]. destruct b0; [now left|right]. cbn [pred]. lia.
      + intros p. assert (Y := lookup_bind ps (map flats args) p ND ltac:(rewrite map_length; rewrite map_length in AR2; congruence)).
        destruct (bind_all ps vs p) as [v|] eqn:BE.
        * destruct (bind_two ps vs (map flats args) p v ND ltac:(congruence) ltac:(congruence) BE) as (w & W1 & W2). rewrite W1 in Y. destruct Y as (ix & Y1 & Y2).
          exists ix, w. split; [exact Y1|]. split; [exact Y2|]. intros ex st r0 S L.
          assert (AX : exists a, w = flats a /\ expand defs (pred b0) false [n] no_bind a v).
          { clear - W2 XA. remember false as sc. remember [n] as H. remember no_bind as rho. induction XA as [|b sc H rho a args v0 vs X XS IH]; cbn in W2; [contradiction|]. subst.
            destruct W2 as [W2|W2]; [inversion W2; subst; eauto|]. apply IH; auto. }
          destruct AX as (a & -> & XA'). rewrite <- (map_id (flats a)). rewrite <- (app_nil_r (map _ (flats a))).
          assert (CI : forall l, map (lookup_macro_token []) l = l). { induction l as [|u l IHl]; cbn; [reflexivity|]. rewrite IHl. destruct u; reflexivity. }
          rewrite map_id. rewrite <- (CI (flats a)).
          eapply (proj1 (main defs) _ _ _ _ _ _ XA' [] [] None st [] r0 ex [n] 0); [|exact (env_none defs 0 [n])|intros ? ? Z; discriminate].
          repeat split; try discriminate; [exact S|exact S|exact L|]. destruct (pred b0); [now left|right]. lia.
        * destruct (bind_all ps (map flats args) p) as [w|] eqn:BE2; [|exact Y].
          exfalso. destruct (bind_two ps (map flats args) vs p w ND ltac:(congruence) ltac:(congruence) BE2) as (v & V1 & _). congruence.
      + intros p v BE. assert (PV : Forall (plain defs) vs) by (apply (proj2 (proj2 (all_plain defs)) _ _ _ _ _ _ XA eq_refl); intros ? ? Z; discriminate).
        rewrite bind_all_assoc in BE. apply assoc_in in BE as [_ BE]. rewrite combine_snd in BE by congruence. rewrite Forall_forall in PV. auto.
  Qed.
  Lemma all_source :
    (forall b scan H rho its ts, expand defs b scan H rho its ts -> (forall n v, rho n = Some v -> Forall source v) -> Forall source ts) /\
    (forall b scan H rho it ts, expand1 defs b scan H rho it ts -> (forall n v, rho n = Some v -> Forall source v) -> Forall source ts) /\
    (forall b scan H rho args vs, expands defs b scan H rho args vs -> (forall n v, rho n = Some v -> Forall source v) -> Forall (Forall source) vs).
  Proof.
    apply (expand_all defs
      (fun b scan H rho its ts _ => (forall n v, rho n = Some v -> Forall source v) -> Forall source ts)
      (fun b scan H rho it ts _ => (forall n v, rho n = Some v -> Forall source v) -> Forall source ts)
      (fun b scan H rho args vs _ => (forall n v, rho n = Some v -> Forall source v) -> Forall (Forall source) vs)); intros; try (repeat constructor; fail).
    - apply Forall_app; auto.
    - eauto.
    - apply H0. intros ? ? X. discriminate.
    - constructor; [exact I|]. constructor; [exact I|]. apply Forall_app; split; [apply join_source; auto|repeat constructor].
    - apply H1. intros p v X. rewrite bind_all_assoc in X. apply assoc_in in X as [_ X]. destruct a as (_ & LL & _). rewrite combine_snd in X by auto.
      specialize (H0 H2). rewrite Forall_forall in H0. auto.
    - constructor; auto.
  Qed.
  Lemma emits_all s ts s' : emits tab true s ts s' -> Forall source ts -> evt tab true s' (RTok TEof s') ->
    exists k, forall fuel m, k <= fuel -> length ts < m -> all_toks tab m s fuel = Some ts.
  Proof.
    intros E F V. induction E as [s s' R|s t s1 ts s' V1 E IH].
    - destruct (R _ V) as (k & K). exists k. intros fuel m L M. destruct m as [|m]; [lia|]. cbn [all_toks]. rewrite K by lia. reflexivity.
    - inversion F as [|? ? Ft Fts]; subst. destruct (IH Fts V) as (k & K). destruct V1 as (k1 & K1). exists (k + k1). intros fuel m L M. destruct m as [|m]; [lia|]. cbn [List.length] in M. cbn [all_toks].
      rewrite K1 by lia. replace (is_eof t) with false by (destruct t; cbn in Ft; [reflexivity|contradiction|contradiction|reflexivity]). rewrite K by lia. reflexivity.
  Qed.
  (** A file whose macro uses expand (by the rules of C) to [ts], nested at most 59 deep: get_tok delivers [ts] and then the
      end of the file. *)
  Theorem c10_expansion_partial its ts : expand defs 59 true [] no_bind its ts ->
    exists k, forall fuel m, k <= fuel -> length ts < m -> all_toks tab m (file_state (flats its)) fuel = Some ts.
  Proof.
    intros X. apply (emits_all _ _ (file_state [])).
    - rewrite <- (app_nil_r (flats its)). eapply file_main; eauto.
    - apply (proj1 all_source _ _ _ _ _ _ X). intros ? ? Y. discriminate.
    - apply file_eof.
  Qed.
  (** The reader after a use: whatever the context (rest of the body [l], arguments [avs], macro [i], enclosing expansions
      [st]), once the expansion is delivered the reader is in that context again, right after the use. *)
  Theorem c10_returns b H rho it ts : expand1 defs b true H rho it ts -> forall qs avs i st l r ex Hp K, ctx_ok b true H Hp K i st -> env_ok defs K Hp qs rho avs -> (forall n v, rho n = Some v -> plain defs v) ->
    emits tab ex (St (Ctx (map (lookup_macro_token qs) (flat it) ++ l) avs i) st r) ts (St (Ctx l avs i) st r).
  Proof. apply (proj1 (proj2 (main defs))). Qed.
  (** No re-entry: while the body of a macro is being read, a macro that is being expanded is delivered as its name. *)
  Theorem c10_no_reentry n m l avs i st r ex f : defs n <> None -> i = Some m -> (m = n \/ exists c, In c st /\ c_ident c = Some n) ->
    get_tok tab (S f) ex (St (Ctx (TId n :: l) avs i) st r) = RTok (TId n) (St (Ctx l avs i) st r).
  Proof.
    intros D -> H. destruct (macro_in defs n D) as (d & E). rewrite (gt_macro_lst tab ex n (handle_define d)) by (unfold tab, table_of; now rewrite E).
    unfold attempt_macro_expansion. rewrite already_true; [reflexivity|discriminate|]. unfold names. cbn. destruct H as [->|(c & I1 & I2)]; [now left|right].
    apply in_flat_map. exists c. split; auto. unfold cnames. rewrite I2. now left.
  Qed.
End C10.

(** The stack of expansions never overruns its array (180 cells, three for each level). *)
Theorem c10_stack_bound tab f : forall ex s, 3 * length (stack s) + 3 <= 180 -> match get_tok tab f ex s with RTok _ s' => 3 * length (stack s') + 3 <= 180 | _ => True end.
Proof.
  assert (BG : forall i ts a s s', begin_macro_expansion i ts a s = Some s' -> 3 * length (stack s') + 3 <= 180 ).
  { intros i ts a s s'. unfold begin_macro_expansion, MACRO_RECURSION_MAX. destruct (Nat.leb_spec 180 (3 * length (stack s) + 3)); [discriminate|]. intros E; inversion E; subst. cbn [stack List.length]. lia. }
  enough (A : (forall ex s, 3 * length (stack s) + 3 <= 180 -> match get_tok tab f ex s with RTok _ s' => 3 * length (stack s') + 3 <= 180 | _ => True end) /\
    (forall s, 3 * length (stack s) + 3 <= 180 -> match macro_args tab f s with AOk _ s' => 3 * length (stack s') + 3 <= 180 | _ => True end) /\
    (forall a p t s, 3 * length (stack s) + 3 <= 180 -> match args_loop tab f a p t s with AOk _ s' => 3 * length (stack s') + 3 <= 180 | _ => True end) /\
    (forall d t s, 3 * length (stack s) + 3 <= 180 -> match macro_parse_argument tab f d t s with POk _ _ s' => 3 * length (stack s') + 3 <= 180 | _ => True end)) by apply A.
  induction f as [|f (G & A & L & P)]; [repeat split; intros; exact I|]. split; [|split; [|split]].
  - intros ex s B. rewrite gt_eq. cbv zeta.
    assert (TRY : forall n m s1, 3 * length (stack s1) + 3 <= 180 -> match match attempt_macro_expansion (get_tok tab f ex) (macro_args tab f) n m s1 with ATok t s2 => RTok t s2 | AGo s2 => get_tok tab f ex s2 | AFail => RErr | ANoFuel => RFuel end with RTok _ s' => 3 * length (stack s') + 3 <= 180 | _ => True end).
    { intros n m s1 B1. unfold attempt_macro_expansion. destruct (macro_is_already_expanding n s1); [exact B1|]. destruct (m_argc m) as [argc|].
      - assert (G1 := G ex s1 B1). destruct (get_tok tab f ex s1) as [t s2| |] eqn:E; try exact I. destruct (is_lp t).
        + assert (A1 := A s2 G1). destruct (macro_args tab f s2) as [args s3| |]; try exact I. destruct (length args =? argc); [|exact I].
          destruct (begin_macro_expansion (Some n) (m_toks m) args s3) as [s4|] eqn:E4; [|exact I]. apply BG in E4. now apply G.
        + destruct (begin_macro_expansion None [t] [] s2) as [s4|] eqn:E4; [|exact I]. apply BG in E4. exact E4.
      - destruct (begin_macro_expansion (Some n) (m_toks m) [] s1) as [s4|] eqn:E4; [|exact I]. apply BG in E4. now apply G. }
    destruct (c_lst (cur s)) as [|t l].
    + destruct (stack s) as [|c st] eqn:ES; [|apply G; cbn [stack List.length] in *; lia]. destruct (inp s) as [|t r]; [rewrite ES; exact B|].
      destruct t; try exact B. destruct (tab n); [|exact B]. destruct ex; [|exact B]. apply TRY. exact B.
    + destruct t; try exact B.
      * destruct (tab n); [|exact B]. apply TRY. exact B.
      * destruct (get_macro_arg i (c_args (cur s))); [|exact I]. destruct (begin_macro_expansion None _ [] _) as [s4|] eqn:E4; [|exact I]. apply BG in E4. now apply G.
  - intros s B. rewrite ma_eq. assert (G1 := G false s B). destruct (get_tok tab f false s); try exact I. now apply L.
  - intros a p t s B. rewrite al_eq. destruct (is_rp t); [exact B|]. destruct (is_eof t); [exact I|]. destruct (is_cm t).
    + assert (G1 := G false s B). destruct (get_tok tab f false s); try exact I. now apply L.
    + assert (P1 := P 0%Z t s B). destruct (macro_parse_argument tab f 0 t s); try exact I. now apply L.
  - intros d t s B. rewrite mp_eq. cbv zeta. destruct (_ && _); [|exact B]. assert (G1 := G false s B). destruct (get_tok tab f false s) as [t1 s1| |]; try exact I.
    match goal with |- context [macro_parse_argument tab f ?x t1 s1] => assert (P1 := P x t1 s1 G1); destruct (macro_parse_argument tab f x t1 s1) end; try exact I. exact P1.
Qed.

(** ** Object-like macros: always, and only, C's expansion *)
Section Objects.
  Variable defs : name -> option mdef.
  Variable dom : list name.
  Hypothesis dom_all : forall n, defs n <> None -> In n dom.
  Hypothesis objects : forall n d, defs n = Some d -> d_params d = None /\ Forall source (d_body d).
  Definition classify (t : mtok) : item :=
    match t with TT c v => IT c v | TId n => match defs n with Some _ => IObj n | None => IId n end | _ => IT 0 0 end.
  Lemma classify_flats ts : Forall source ts -> flats (map classify ts) = ts.
  Proof.
    induction 1 as [|t ts S _ IH]; [reflexivity|]. cbn [map flats flat_map]. change (flat_map flat (map classify ts)) with (flats (map classify ts)). rewrite IH.
    destruct t; try contradiction; cbn; [|reflexivity]. destruct (defs n); reflexivity.
  Qed.
  Lemma objects_expand b : forall H, NoDup H -> incl H dom -> length dom <= length H + b -> forall ts, Forall source ts -> exists out, expand defs b true H no_bind (map classify ts) out.
  Proof.
    induction b as [|b IHb]; intros H ND IN L; (induction ts as [|t ts IH]; intros F; [eexists; apply x_nil|]; inversion F as [|? ? S F']; subst; destruct (IH F') as (out & X)).
    - enough (Y : exists o, expand1 defs 0 true H no_bind (classify t) o) by (destruct Y as (o & Y); exists (o ++ out); cbn [map]; now apply x_cons).
      destruct t as [n| | |c v]; try contradiction; cbn [classify]; [|eexists; apply x_tok].
      destruct (defs n) as [d|] eqn:D; [|eexists; apply x_id; [unfold is_macro; rewrite D; tauto|reflexivity]].
      eexists. apply x_hidden_obj; [|reflexivity|unfold is_macro; rewrite D; discriminate].
      destruct (in_dec Nat.eq_dec n H) as [I|N]; [exact I|]. exfalso.
      assert (Y : length (n :: H) <= length dom). { apply NoDup_incl_length; [constructor; auto|]. intros m [<-|M]; [apply dom_all; rewrite D; discriminate|now apply IN]. } cbn in Y. lia.
    - enough (Y : exists o, expand1 defs (Datatypes.S b) true H no_bind (classify t) o) by (destruct Y as (o & Y); exists (o ++ out); cbn [map]; now apply x_cons).
      destruct t as [n| | |c v]; try contradiction; cbn [classify]; [|eexists; apply x_tok].
      destruct (defs n) as [d|] eqn:D; [|eexists; apply x_id; [unfold is_macro; rewrite D; tauto|reflexivity]].
      destruct (in_dec Nat.eq_dec n H) as [I|N].
      { eexists. apply x_hidden_obj; [exact I|reflexivity|unfold is_macro; rewrite D; discriminate]. }
      destruct (objects n d D) as (O & SB). destruct d as [ps body]. cbn in O, SB. subst ps.
      destruct (IHb (n :: H)) with (ts := body) as (o & Y); auto.
      + constructor; auto.
      + intros m [<-|M]; [apply dom_all; rewrite D; discriminate|now apply IN].
      + cbn. lia.
      + exists o. eapply x_obj; [exact N|reflexivity|exact D|apply classify_flats; exact SB|exact Y].
  Qed.
  (** Any table of at most 59 object-like macros, however recursive, and any file: reading ends, without an error, with C's expansion. *)
  Theorem c10_object_like file : length dom <= 59 -> Forall source file ->
    exists out, expand defs 59 true [] no_bind (map classify file) out /\ flats (map classify file) = file /\
      exists k, forall fuel m, k <= fuel -> length out < m -> all_toks (table_of defs) m (file_state file) fuel = Some out.
  Proof.
    intros L F. destruct (objects_expand 59 [] (NoDup_nil _) ltac:(intros ? []) ltac:(cbn; lia) file F) as (out & X). exists out. split; [exact X|].
    assert (E := classify_flats file F). split; [exact E|]. destruct (c10_expansion_partial defs _ _ X) as (k & K). rewrite E in K. exists k. exact K.
  Qed.
End Objects.

(** ** C12: arguments *)
(* in the list of tokens of a file, the value of a punctuator is not used *)
Definition std (t : mtok) : Prop := source t /\ (is_lp t = true -> t = LP) /\ (is_rp t = true -> t = RP) /\ (is_cm t = true -> t = CM).
(* [ts] is: arguments between commas (parentheses inside an argument match, its commas are inside them), a closing
   parenthesis, and [rest] *)
Definition arguments (ts : list mtok) (args : list (list mtok)) (rest : list mtok) : Prop :=
  args <> [] /\ ts = join args ++ RP :: rest /\ Forall (fun a => arg_ok 0 a = true) args.
(* what pnut loses: an empty first argument *)
Definition but_leading (args : list (list mtok)) : list (list mtok) := match args with [] :: r => r | _ => args end.

Lemma arguments_read tab ts args rest : Forall source ts -> arguments ts args rest -> evargs tab (file_state ts) (AOk (rev (but_leading args)) (file_state rest)).
Proof.
  intros S (NE & -> & F). apply Forall_app in S as [S1 S2]. inversion S2; subst.
  assert (E := file_raws tab (join args) (RP :: rest) S1). assert (V : evt tab false (file_state (RP :: rest)) (RTok RP (file_state rest))) by apply file_tt.
  destruct args as [|a args]; [congruence|]. destruct a as [|t a].
  - cbn [but_leading]. destruct args as [|a2 args].
    + cbn [join app]. destruct V as (k & K). destruct (loop_rp tab [] false RP (file_state rest) eq_refl) as (k2 & K2). exists (Datatypes.S (k + k2)). intros f L. destruct f as [|f]; [lia|]. rewrite ma_eq.
      rewrite K by lia. apply K2; lia.
    + change (join ([] :: a2 :: args)) with (CM :: join (a2 :: args)) in E |- *. cbn [app] in E |- *.
      inversion E as [|? ? s2 ? ? V2 E2]; subst. inversion F as [|? ? _ F2]; subst.
      assert (V3 : evt tab false (file_state (CM :: join (a2 :: args) ++ RP :: rest)) (RTok CM (file_state (join (a2 :: args) ++ RP :: rest)))) by apply file_tt.
      assert (E3 : emits tab false (file_state (join (a2 :: args) ++ RP :: rest)) (join (a2 :: args)) (file_state (RP :: rest))).
      { apply file_raws. change (join ([] :: a2 :: args)) with (CM :: join (a2 :: args)) in S1. inversion S1; auto. }
      destruct (args_read tab (a2 :: args) [] true _ _ _ E3 V ltac:(discriminate) F2 (or_introl eq_refl)) as (k & K). destruct V3 as (k3 & K3).
      exists (Datatypes.S (Datatypes.S (k + k3))). intros f L. destruct f as [|[|f]]; try lia. rewrite ma_eq. rewrite K3 by lia. rewrite al_eq. change (is_rp CM) with false. change (is_eof CM) with false. change (is_cm CM) with true. cbv iota.
      rewrite K by lia. now rewrite app_nil_r.
  - cbn [but_leading]. apply (args_done tab ((t :: a) :: args) _ (file_state (RP :: rest))); auto; try exact E; try exact V.
Qed.
(* the scan of one argument *)
Lemma scan_arg ts : forall d, Forall std ts ->
  (exists a t rest, ts = a ++ t :: rest /\ arg_ok d a = true /\ (t = CM \/ t = RP)) \/
  (forall a t rest, ts = a ++ t :: rest -> arg_ok d a = true -> stop t = false).
Proof.
  induction ts as [|t ts IH]; intros d S.
  - right. intros a t rest E. destruct a; discriminate.
  - inversion S as [|? ? St S']; subst. destruct St as (So & T1 & T2 & T3). destruct (tt_excl t) as (X1 & X2 & X3).
    destruct (Nat.eq_dec d 0) as [->|Dn]; [destruct (stop t) eqn:ST|].
    + left. exists [], t, ts. split; [reflexivity|]. split; [reflexivity|]. unfold stop in ST. destruct (is_cm t); [left; auto|right; auto].
    + assert (A : exists d', forall r, arg_ok 0 (t :: r) = arg_ok d' r).
      { unfold stop in ST. apply orb_false_iff in ST as [S1 S2]. cbn [arg_ok]. rewrite S1, S2. destruct (is_lp t); [exists 1; auto|]. exists 0. intros r. destruct t; try contradiction; reflexivity. }
      destruct A as (d' & A). destruct (IH d' S') as [(a & u & rest & -> & B & C)|N].
      * left. exists (t :: a), u, rest. split; [reflexivity|]. rewrite A. auto.
      * right. intros a u rest E B. destruct a as [|x a]; [cbn in E; inversion E; subst; exact ST|]. inversion E; subst. apply (N a u rest eq_refl). rewrite <- A. exact B.
    + destruct d as [|d]; [congruence|].
      assert (A : exists d', forall r, arg_ok (Datatypes.S d) (t :: r) = arg_ok d' r).
      { cbn [arg_ok]. destruct (is_lp t); [eexists; auto|]. destruct (is_rp t); [eexists; auto|]. destruct (is_cm t); [exists (Datatypes.S d); auto|]. exists (Datatypes.S d). intros r. destruct t; try contradiction; reflexivity. }
      destruct A as (d' & A). destruct (IH d' S') as [(a & u & rest & -> & B & C)|N].
      * left. exists (t :: a), u, rest. split; [reflexivity|]. rewrite A. auto.
      * right. intros a u rest E B. destruct a as [|x a]; [cbn in B; discriminate|]. inversion E; subst. apply (N a u rest eq_refl). rewrite <- A. exact B.
Qed.
(* no end of the argument: the loop stops at the end of the file *)
Lemma parse_eof tab ts : forall d t, Forall std (t :: ts) -> (forall a u rest, t :: ts = a ++ u :: rest -> arg_ok d a = true -> stop u = false) ->
  exists v k, forall f, k <= f -> macro_parse_argument tab f (Z.of_nat d) t (file_state ts) = POk v TEof (file_state []).
Proof.
  induction ts as [|u ts IH]; intros d t S N; inversion S as [|? ? (So & T1 & T2 & T3) S']; subst; destruct (tt_excl t) as (X1 & X2 & X3).
  all: assert (C : ((0 <? Z.of_nat d)%Z || negb (is_cm t || is_rp t)) && negb (is_eof t) = true).
  1,3: replace (is_eof t) with false by (destruct t; cbn in So; try contradiction; reflexivity); rewrite andb_true_r; destruct d as [|d];
    [assert (ST := N [] t _ eq_refl eq_refl); unfold stop in ST; rewrite ST; reflexivity|replace (0 <? Z.of_nat (Datatypes.S d))%Z with true by (symmetry; apply Z.ltb_lt; lia); reflexivity].
  - exists [t], 3. intros f L. destruct f as [|[|[|f]]]; try lia. rewrite mp_eq. rewrite C. cbv zeta. change (get_tok tab (Datatypes.S (Datatypes.S f)) false (file_state [])) with (RTok TEof (file_state [])). cbv iota.
    rewrite mp_eq. cbn [is_eof negb]. rewrite andb_false_r. reflexivity.
  - assert (A : exists d', (forall r, arg_ok d (t :: r) = arg_ok d' r) /\ (if is_rp t then (if is_lp t then Z.of_nat d + 1 else Z.of_nat d) - 1 else if is_lp t then Z.of_nat d + 1 else Z.of_nat d)%Z = Z.of_nat d').
    { cbn [arg_ok]. destruct (is_lp t) eqn:E1.
      - destruct (X1 eq_refl) as (-> & _). exists (Datatypes.S d). split; [auto|lia].
      - destruct (is_rp t) eqn:E2.
        + destruct d as [|d]; [assert (ST := N [] t _ eq_refl eq_refl); unfold stop in ST; rewrite E2, orb_true_r in ST; discriminate|]. exists d. split; [auto|lia].
        + exists d. split; [|reflexivity]. intros r. destruct (is_cm t) eqn:E3.
          * destruct d as [|d]; [assert (ST := N [] t _ eq_refl eq_refl); unfold stop in ST; rewrite E3 in ST; discriminate|]. reflexivity.
          * destruct t; try contradiction; reflexivity. }
    destruct A as (d' & A & D). destruct (IH d' u S') as (v & k & K).
    { intros a x rest E B. apply (N (t :: a) x rest); [cbn; now rewrite E|]. now rewrite A. }
    exists (t :: v), (Datatypes.S (Datatypes.S k)). intros f L. destruct f as [|[|f]]; try lia. rewrite mp_eq, C. cbv zeta. rewrite D.
    assert (G : get_tok tab (Datatypes.S f) false (file_state (u :: ts)) = RTok u (file_state ts)).
    { inversion S' as [|? ? (Su & _) _]; subst. rewrite gt_eq. cbn. destruct u; try contradiction; [|reflexivity]. destruct (tab n); reflexivity. }
    rewrite G. rewrite K by lia. reflexivity.
Qed.
Lemma arg_ok_cons_stop t a : arg_ok 0 (t :: a) = true -> stop t = false /\ is_eof t = false.
Proof.
  intros H. cbn in H. destruct (tt_excl t) as (X1 & X2 & X3). unfold stop. destruct (is_lp t) eqn:E1; [destruct (X1 eq_refl) as (-> & -> & ->); auto|].
  destruct (is_rp t); [discriminate|]. destruct (is_cm t); [discriminate|]. cbn. destruct (is_eof t); [discriminate|auto].
Qed.
Lemma loop_eof tab n : forall ts p acc, length ts <= n -> Forall std ts -> (forall args rest, ~ arguments ts args rest) ->
  exists k, forall f, k <= f -> match get_tok tab f false (file_state ts) with RTok t s2 => args_loop tab f acc p t s2 | RErr => AErr | RFuel => AFuel end = AErr.
Proof.
  induction n as [|n IH]; intros ts p acc L S N.
  - destruct ts; [|cbn in L; lia]. exists 2. intros f F. destruct f as [|[|f]]; try lia. reflexivity.
  - destruct ts as [|t ts]; [exists 2; intros f F; destruct f as [|[|f]]; try lia; reflexivity|].
    inversion S as [|? ? St S']; subst. assert (St' := St). destruct St' as (So & T1 & T2 & T3).
    assert (G : forall f, get_tok tab (Datatypes.S f) false (file_state (t :: ts)) = RTok t (file_state ts)).
    { intros f. rewrite gt_eq. cbn. destruct t; try contradiction; [|reflexivity]. destruct (tab n0); reflexivity. }
    assert (NE : is_eof t = false) by (destruct t; try contradiction; reflexivity).
    destruct (is_rp t) eqn:ER.
    { exfalso. apply (N [[]] ts). split; [discriminate|]. split; [cbn; f_equal; auto|]. repeat constructor. }
    destruct (is_cm t) eqn:EC.
    { destruct (IH ts true (if p then [] :: acc else acc)) as (k & K); [cbn in L; lia|exact S'| |].
      - intros args rest (A1 & A2 & A3). apply (N ([] :: args) rest). split; [discriminate|]. split; [|constructor; auto]. destruct args as [|a args]; [congruence|].
        change (join ([] :: a :: args)) with (CM :: join (a :: args)). cbn [app]. rewrite <- A2. f_equal. auto.
      - exists (Datatypes.S k). intros f F. destruct f as [|f]; [lia|]. rewrite G. rewrite al_eq, ER, NE, EC. apply K. lia. }
    destruct (scan_arg (t :: ts) 0 S) as [(a & u & rest & E & A & U)|NS].
    + destruct a as [|t' a]; [cbn in E; inversion E; subst; destruct U as [->| ->]; discriminate|]. cbn in E. inversion E; subst t'.
      destruct U as [->| ->].
      * (* a comma *)
        subst ts. assert (SA := S'). apply Forall_app in SA as [SA SR]. inversion SR as [|? ? _ SR']; subst.
        assert (EM : emits tab false (file_state (a ++ CM :: rest)) a (file_state (CM :: rest))). { apply file_raws. eapply Forall_impl; [|exact SA]. intros x (X & _). exact X. }
        assert (V : evt tab false (file_state (CM :: rest)) (RTok CM (file_state rest))) by apply file_tt.
        destruct (parse_arg tab a 0 t _ _ _ _ EM V A eq_refl (fun _ => proj1 (arg_ok_cons_stop _ _ A))) as (k & K). cbn [Z.of_nat] in K.
        destruct (IH rest true ((t :: a) :: acc)) as (k2 & K2).
        { rewrite app_length in L || (cbn in L; rewrite app_length in L). cbn in L. lia. }
        { exact SR'. }
        { intros args rest' (A1 & A2 & A3). apply (N ((t :: a) :: args) rest'). split; [discriminate|]. split; [|constructor; auto].
          destruct args as [|b args]; [congruence|]. change (join ((t :: a) :: b :: args)) with ((t :: a) ++ CM :: join (b :: args)). rewrite <- app_assoc. cbn [app]. rewrite A2. reflexivity. }
        exists (Datatypes.S (Datatypes.S (k + k2))). intros f F. destruct f as [|[|f]]; try lia. rewrite G. rewrite al_eq, ER, NE, EC. rewrite K by lia. rewrite al_eq.
        change (is_rp CM) with false. change (is_eof CM) with false. change (is_cm CM) with true. cbv iota. apply K2. lia.
      * exfalso. apply (N [t :: a] rest). split; [discriminate|]. split; [cbn; now rewrite H1|]. constructor; auto.
    + destruct (parse_eof tab ts 0 t S NS) as (v & k & K). cbn [Z.of_nat] in K. exists (Datatypes.S (Datatypes.S k)). intros f F. destruct f as [|[|f]]; try lia. rewrite G. rewrite al_eq, ER, NE, EC. rewrite K by lia.
      rewrite al_eq. reflexivity.
Qed.
(** The arguments of a use whose name was read from the file: [ts] is what follows the opening parenthesis. *)
Theorem c12_arguments tab ts args rest : Forall std ts -> arguments ts args rest -> but_leading args = args ->
  evargs tab (file_state ts) (AOk (rev args) (file_state rest)).
Proof. intros S A B. rewrite <- B. apply arguments_read; auto. eapply Forall_impl; [|exact S]. intros x (X & _). exact X. Qed.
(** Exactly what is read in every case: the arguments but an empty first one; an error if the list does not end. *)
Theorem c12_exact tab ts : Forall std ts ->
  (exists args rest, arguments ts args rest /\ evargs tab (file_state ts) (AOk (rev (but_leading args)) (file_state rest))) \/
  ((forall args rest, ~ arguments ts args rest) /\ evargs tab (file_state ts) AErr).
Proof.
  intros S.
  assert (D : (exists args rest, arguments ts args rest) \/ (forall args rest, ~ arguments ts args rest)).
  { remember (length ts) as n eqn:L. assert (L' : length ts <= n) by lia. clear L. revert ts S L'. induction n as [|n IH]; intros ts S L.
    - right. destruct ts; [|cbn in L; lia]. intros args rest (_ & E & _). destruct (join args); discriminate.
    - destruct (scan_arg ts 0 S) as [(a & t & rest & -> & A & [->| ->])|N].
      + assert (SR := S). apply Forall_app in SR as [_ SR]. inversion SR; subst. rewrite app_length in L. cbn in L.
        destruct (IH rest) as [(args & rest' & A1 & A2 & A3)|N]; auto; [lia| |].
        * left. exists (a :: args), rest'. split; [discriminate|]. split; [|constructor; auto]. destruct args as [|b args]; [congruence|].
          change (join (a :: b :: args)) with (a ++ CM :: join (b :: args)). rewrite <- app_assoc. cbn [app]. now rewrite A2.
        * right. intros args rest' (A1 & A2 & A3). destruct args as [|b args]; [congruence|]. inversion A3 as [|? ? B1 B2]; subst.
          assert (EQ : exists r0, join (b :: args) ++ RP :: rest' = b ++ r0 /\ ((args = [] /\ r0 = RP :: rest') \/ args <> [] /\ r0 = CM :: join args ++ RP :: rest')).
          { destruct args as [|c args]; [eexists; split; [reflexivity|left; auto]|]. eexists. split; [change (join (b :: c :: args)) with (b ++ CM :: join (c :: args)); rewrite <- app_assoc; reflexivity|]. right. split; [discriminate|reflexivity]. }
          destruct EQ as (r0 & EQ & K). rewrite EQ in A2. clear EQ.
          assert (UNI : forall d x y u v r1 r2, x ++ u :: r1 = y ++ v :: r2 -> arg_ok d x = true -> arg_ok d y = true -> stop u = true -> stop v = true -> x = y /\ u :: r1 = v :: r2).
          { clear. intros d x. revert d. induction x as [|t x IHx]; intros d [|w y] u v r1 r2 E X Y U V.
            - auto.
            - cbn in E. inversion E; subst. cbn in X. apply Nat.eqb_eq in X. subst. apply arg_ok_cons_stop in Y as [Y _]. congruence.
            - cbn in E. inversion E; subst. cbn in Y. apply Nat.eqb_eq in Y. subst. apply arg_ok_cons_stop in X as [X _]. congruence.
            - cbn [app] in E. inversion E; subst. assert (Z : exists d', arg_ok d' x = true /\ arg_ok d' y = true).
              { cbn [arg_ok] in X, Y. destruct (is_lp w); [eauto|]. destruct (is_rp w); [destruct d; [discriminate|eauto]|]. destruct (is_cm w); [apply andb_prop in X as [_ X]; apply andb_prop in Y as [_ Y]; eauto|].
                apply andb_prop in X as [_ X]; apply andb_prop in Y as [_ Y]; eauto. }
              destruct Z as (d' & Z1 & Z2). destruct (IHx d' y u v r1 r2 H1 Z1 Z2 U V) as [-> E2]. auto. }
          destruct K as [(-> & ->)|(NA & ->)].
          -- destruct (UNI 0 a b CM RP rest rest' A2 A B1 eq_refl eq_refl) as [_ Q]. inversion Q.
          -- destruct (UNI 0 a b CM CM rest (join args ++ RP :: rest') A2 A B1 eq_refl eq_refl) as [_ Q]. inversion Q; subst. apply (N args rest'). split; auto.
      + left. exists [a], rest. split; [discriminate|]. split; [reflexivity|]. constructor; auto.
      + right. intros args rest (A1 & A2 & A3). destruct args as [|b args]; [congruence|]. inversion A3; subst. destruct args as [|c args].
        * assert (X := N b RP rest eq_refl H1). discriminate.
        * assert (X := N b CM (join (c :: args) ++ RP :: rest)). change (join (b :: c :: args)) with (b ++ CM :: join (c :: args)) in X. rewrite <- app_assoc in X. specialize (X eq_refl H1). discriminate. }
  assert (SS : Forall source ts). { eapply Forall_impl; [|exact S]. intros x (X & _). exact X. }
  destruct D as [(args & rest & A)|N].
  - left. exists args, rest. split; [exact A|]. now apply arguments_read.
  - right. split; [exact N|]. destruct (loop_eof tab (length ts) ts false [] (le_n _) S N) as (k & K). exists (Datatypes.S k). intros f F. destruct f as [|f]; [lia|]. rewrite ma_eq. apply K. lia.
Qed.

(** ** What differs from C

    The algorithm of the C committee (D. Prosser): tokens with hide sets.  It is used here to compute what C requires on
    concrete inputs. *)
Definition htok := (mtok * list name)%type.
Definition mem (n : name) (l : list name) : bool := existsb (Nat.eqb n) l.
Definition hide (h : list name) (l : list htok) : list htok := map (fun x => (fst x, h ++ snd x)) l.
(* the arguments after an opening parenthesis: current argument and finished ones reversed *)
Fixpoint gather (d : nat) (arg : list htok) (args : list (list htok)) (l : list htok) : option (list (list htok) * list name * list htok) :=
  match l with
  | [] => None
  | (t, h) :: r =>
      if is_rp t then match d with
                      | O => Some (rev (rev arg :: args), h, r)
                      | Datatypes.S d' => gather d' ((t, h) :: arg) args r
                      end
      else if is_lp t then gather (Datatypes.S d) ((t, h) :: arg) args r
      else if is_cm t && Nat.eqb d 0 then gather d [] (rev arg :: args) r
      else gather d ((t, h) :: arg) args r
  end.
Fixpoint find_param (ps : list name) (args : list (list htok)) (n : name) : option (list htok) :=
  match ps, args with p :: ps', a :: args' => if Nat.eqb p n then Some a else find_param ps' args' n | _, _ => None end.
Fixpoint prosser (fuel : nat) (defs : name -> option mdef) (l : list htok) : option (list htok) :=
  match fuel with
  | O => None
  | Datatypes.S f =>
      let keep x r := match prosser f defs r with Some r' => Some (x :: r') | None => None end in
      match l with
      | [] => Some []
      | (TId n, h) :: r =>
          if mem n h then keep (TId n, h) r
          else match defs n with
          | None => keep (TId n, h) r
          | Some (Def None body) => prosser f defs (hide (n :: h) (map (fun t => (t, [])) body) ++ r)
          | Some (Def (Some ps) body) =>
              match r with
              | (t, _) :: r1 =>
                  if is_lp t then
                    match gather 0 [] [] r1 with
                    | Some (args, h', r2) =>
                        let args := match ps, args with [], [[]] => [] | _, _ => args end in
                        if Nat.eqb (length args) (length ps) then
                          let subst := fold_right (fun t acc => match acc with None => None | Some acc =>
                             match t with
                             | TId p => match find_param ps args p with
                                        | Some a => match prosser f defs a with Some a' => Some (a' ++ acc) | None => None end
                                        | None => Some ((t, []) :: acc)
                                        end
                             | _ => Some ((t, []) :: acc)
                             end end) (Some []) body in
                          match subst with
                          | Some b => prosser f defs (hide (n :: filter (fun x => mem x h') h) b ++ r2)
                          | None => None
                          end
                        else None
                    | None => None
                    end
                  else keep (TId n, h) r
              | [] => keep (TId n, h) r
              end
          end
      | x :: r => keep x r
      end
  end.
(** By C's rules the file [ts] expands to [out]. *)
Definition c_gives (defs : name -> option mdef) (ts out : list mtok) : Prop :=
  exists f l, prosser f defs (map (fun t => (t, [])) ts) = Some l /\ map fst l = out.
(** pnut delivers [out], or stops with an error. *)
Definition pnut_gives defs ts out := exists k, all_toks (table_of defs) k (file_state ts) k = Some out.
Definition pnut_rejects defs ts := exists k, get_tok (table_of defs) k true (file_state ts) = RErr.
Definition two (n1 : name) d1 (n2 : name) d2 : name -> option mdef := fun n => if Nat.eqb n n1 then Some d1 else if Nat.eqb n n2 then Some d2 else None.
Definition num (v : Z) : mtok := TT 401 v.
(* #define X f(X)   #define f(y) y ; the file: X *)
Theorem c10_self_in_argument_refuted : let defs := two 1 (Def None [TId 2; LP; TId 1; RP]) 2 (Def (Some [9]) [TId 9]) in
  c_gives defs [TId 1] [TId 1] /\ pnut_gives defs [TId 1] [TId 2; LP; TId 1; RP].
Proof. split; [exists 40; eexists; vm_compute; split; reflexivity|exists 60; vm_compute; reflexivity]. Qed.
(* #define f(x) x   #define g f(2) ; the file: f(g) *)
Theorem c10_false_positive_refuted : let defs := two 2 (Def (Some [9]) [TId 9]) 1 (Def None [TId 2; LP; num 2; RP]) in
  c_gives defs [TId 2; LP; TId 1; RP] [num 2] /\ pnut_gives defs [TId 2; LP; TId 1; RP] [TId 2; LP; num 2; RP].
Proof. split; [exists 40; eexists; vm_compute; split; reflexivity|exists 60; vm_compute; reflexivity]. Qed.
(* #define L (   #define F(x) x ; the file: F L 1 ) *)
Theorem c10_late_parenthesis_refuted : let defs := two 1 (Def None [LP]) 2 (Def (Some [9]) [TId 9]) in
  c_gives defs [TId 2; TId 1; num 1; RP] [TId 2; LP; num 1; RP] /\ pnut_gives defs [TId 2; TId 1; num 1; RP] [num 1].
Proof. split; [exists 40; eexists; vm_compute; split; reflexivity|exists 60; vm_compute; reflexivity]. Qed.
(* #define F(a,b) a b ; the file: F(,1) *)
Theorem c12_leading_empty_refuted : let defs := two 2 (Def (Some [8; 9]) [TId 8; TId 9]) 2 (Def None []) in
  c_gives defs [TId 2; LP; CM; num 1; RP] [num 1] /\ pnut_rejects defs [TId 2; LP; CM; num 1; RP].
Proof. split; [exists 40; eexists; vm_compute; split; reflexivity|exists 60; vm_compute; reflexivity]. Qed.
(* #define F(a) 1 a ; the file: F() *)
Theorem c12_single_empty_refuted : let defs := two 2 (Def (Some [8]) [num 1; TId 8]) 2 (Def None []) in
  c_gives defs [TId 2; LP; RP] [num 1] /\ pnut_rejects defs [TId 2; LP; RP].
Proof. split; [exists 40; eexists; vm_compute; split; reflexivity|exists 60; vm_compute; reflexivity]. Qed.
(* #define P 1,2   #define F(x) x   #define G F(P): in a body, an argument is expanded before it is split; the file: G *)
Theorem c12_comma_in_expansion_refuted : let defs := fun n => if Nat.eqb n 1 then Some (Def None [num 1; CM; num 2]) else
    two 2 (Def (Some [9]) [TId 9]) 3 (Def None [TId 2; LP; TId 1; RP]) n in
  c_gives defs [TId 3] [num 1; CM; num 2] /\ pnut_rejects defs [TId 3].
Proof. split; [exists 40; eexists; vm_compute; split; reflexivity|exists 60; vm_compute; reflexivity]. Qed.

(** A case of the fragment: #define S(a,b) (a, T(b)) + S(a)   #define T(x) x x U   #define U T ; S is not replaced again inside S.
    The file: S(1, (2, U0)) + U with U0 no macro. *)
Definition ex_defs : name -> option mdef := fun n =>
  if Nat.eqb n 1 then Some (Def (Some [10; 11]) [LP; TId 10; CM; TId 2; LP; TId 11; RP; RP; TT 43 0; TId 1; LP; TId 10; RP])
  else two 2 (Def (Some [12]) [TId 12; TId 12; TId 3]) 3 (Def None [TT 42 0; TId 3]) n.
Definition ex_items : list item := [ICall 1 [[IT 401 1]; [IT 40 0; IT 401 2; IT 44 0; IId 7; IT 41 0]]; IT 43 0; IObj 3].
Definition ex_out : list mtok :=
  [LP; num 1; CM; LP; num 2; CM; TId 7; RP; LP; num 2; CM; TId 7; RP; TT 42 0; TId 3; RP; TT 43 0; TId 1; LP; num 1; RP; TT 43 0; TT 42 0; TId 3].
Example c10_instance : expand ex_defs 59 true [] no_bind ex_items ex_out /\ pnut_gives ex_defs (flats ex_items) ex_out /\ c_gives ex_defs (flats ex_items) ex_out.
Proof.
  split; [|split; [exists 80; vm_compute; reflexivity|exists 80; eexists; vm_compute; split; reflexivity]].
  unfold ex_items.
  replace ex_out with (([LP; num 1; CM; LP; num 2; CM; TId 7; RP; LP; num 2; CM; TId 7; RP; TT 42 0; TId 3; RP; TT 43 0; TId 1; LP; num 1; RP]) ++ [TT 43 0] ++ [TT 42 0; TId 3] ++ []) by reflexivity.
  assert (NM : forall n, ex_defs n = None -> ~ is_macro ex_defs n) by (intros n H X; apply X; exact H).
  apply x_cons; [|apply x_cons; [apply x_tok|apply x_cons; [|apply x_nil]]].
  - eapply (x_call ex_defs 58 true [] no_bind 1 _ [[num 1]; [LP; num 2; CM; TId 7; RP]] [10; 11] _
      [IT 40 0; IId 10; IT 44 0; ICall 2 [[IId 11]]; IT 41 0; IT 43 0; ICall 1 [[IId 10]]]).
    + intros [].
    + reflexivity.
    + reflexivity.
    + repeat constructor; cbn; intuition discriminate.
    + apply xs_cons; [exact (x_cons _ _ _ _ _ _ _ _ _ (x_tok _ _ _ _ _ _ _) (x_nil _ _ _ _ _))|]. apply xs_cons; [|apply xs_nil].
      replace [LP; num 2; CM; TId 7; RP] with ([LP] ++ [num 2] ++ [CM] ++ [TId 7] ++ [RP] ++ []) by reflexivity.
      apply x_cons; [apply x_tok|]. apply x_cons; [apply x_tok|]. apply x_cons; [apply x_tok|]. apply x_cons; [apply x_id; [apply NM|]; reflexivity|]. apply x_cons; [apply x_tok|apply x_nil].
    + repeat split; repeat constructor.
    + repeat split; repeat constructor.
    + reflexivity.
    + replace [LP; num 1; CM; LP; num 2; CM; TId 7; RP; LP; num 2; CM; TId 7; RP; TT 42 0; TId 3; RP; TT 43 0; TId 1; LP; num 1; RP] with
        ([LP] ++ [num 1] ++ [CM] ++ ([LP; num 2; CM; TId 7; RP] ++ [LP; num 2; CM; TId 7; RP] ++ ([TT 42 0] ++ [TId 3] ++ []) ++ []) ++ [RP] ++ [TT 43 0] ++ (TId 1 :: LP :: join [[num 1]] ++ [RP]) ++ []) by reflexivity.
      apply x_cons; [apply x_tok|]. apply x_cons; [apply x_param; reflexivity|]. apply x_cons; [apply x_tok|]. apply x_cons.
      { eapply (x_call ex_defs 57 true [1] _ 2 _ [[LP; num 2; CM; TId 7; RP]] [12] _ [IId 12; IId 12; IObj 3]).
        - cbn; intuition discriminate.
        - reflexivity.
        - reflexivity.
        - repeat constructor; cbn; intuition discriminate.
        - apply xs_cons; [|apply xs_nil]. rewrite <- (app_nil_r [LP; num 2; CM; TId 7; RP]). apply x_cons; [apply x_param; reflexivity|apply x_nil].
        - repeat split; repeat constructor.
        - repeat split; repeat constructor.
        - reflexivity.
        - apply x_cons; [apply x_param; reflexivity|]. apply x_cons; [apply x_param; reflexivity|]. apply x_cons; [|apply x_nil].
          eapply (x_obj ex_defs 56 true _ _ 3 _ [IT 42 0; IObj 3]); [cbn; intuition discriminate|reflexivity|reflexivity|reflexivity|].
          apply x_cons; [apply x_tok|]. apply x_cons; [|apply x_nil]. apply x_hidden_obj; [now left|reflexivity|discriminate]. }
      apply x_cons; [apply x_tok|]. apply x_cons; [apply x_tok|]. apply x_cons; [|apply x_nil].
      apply x_hidden_call; [now left|reflexivity|discriminate|]. apply xs_cons; [|apply xs_nil]. change [num 1] with ([num 1] ++ []). apply x_cons; [apply x_param; reflexivity|apply x_nil].
  - eapply (x_obj ex_defs 58 true _ _ 3 _ [IT 42 0; IObj 3]); [intros []|reflexivity|reflexivity|reflexivity|].
    change [TT 42 0; TId 3] with ([TT 42 0] ++ [TId 3] ++ []). apply x_cons; [apply x_tok|]. apply x_cons; [|apply x_nil]. apply x_hidden_obj; [now left|reflexivity|discriminate].
Qed.
Example c12_instance : let ts := [LP; num 1; CM; num 2; RP; CM; CM; num 3; RP; num 4] in Forall std ts /\ arguments ts [[LP; num 1; CM; num 2; RP]; []; [num 3]] [num 4].
Proof. split; [repeat constructor; discriminate|]. repeat split; try discriminate; repeat constructor. Qed.
