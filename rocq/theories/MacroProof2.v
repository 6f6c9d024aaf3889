(** * Macro expansion: what get_tok delivers is the expansion *)
From Coq Require Import ZArith List Lia Bool Arith.
From Verif Require Import Macro MacroProof.
Import ListNotations.
Local Notation length := List.length.

Scheme expand_mut := Induction for expand Sort Prop
  with expand1_mut := Induction for expand1 Sort Prop
  with expands_mut := Induction for expands Sort Prop.
Combined Scheme expand_all from expand_mut, expand1_mut, expands_mut.

(** ** Parameters and arguments *)
Fixpoint assoc {A} (l : list (name * A)) (n : name) : option A :=
  match l with [] => None | (p, v) :: r => if Nat.eqb n p then Some v else assoc r n end.
Lemma bind_all_assoc ps : forall vs n, bind_all ps vs n = assoc (combine ps vs) n.
Proof. induction ps as [|p ps IH]; intros [|v vs] n; cbn; auto. destruct (n =? p); auto. Qed.
Lemma assoc_app {A} (a b : list (name * A)) n : assoc (a ++ b) n = match assoc a n with Some v => Some v | None => assoc b n end.
Proof. induction a as [|[p v] a IH]; cbn; auto. destruct (n =? p); auto. Qed.
Lemma assoc_none {A} (a : list (name * A)) n : ~ In n (map fst a) -> assoc a n = None.
Proof. induction a as [|[p v] a IH]; cbn; auto. intros H. destruct (Nat.eqb_spec n p) as [->|D]; [exfalso; apply H; auto|]. apply IH. intros X; apply H; auto. Qed.
Lemma assoc_in {A} (a : list (name * A)) n v : assoc a n = Some v -> In n (map fst a) /\ In v (map snd a).
Proof. induction a as [|[p w] a IH]; cbn; [discriminate|]. destruct (Nat.eqb_spec n p) as [->|D]; [intros H; inversion H; auto|]. intros H. apply IH in H as [A1 A2]. auto. Qed.
Lemma assoc_rev {A} (a : list (name * A)) n : NoDup (map fst a) -> assoc (rev a) n = assoc a n.
Proof.
  induction a as [|[p v] a IH]; cbn; auto. intros H. inversion H as [|? ? N D]; subst. rewrite assoc_app, IH by auto. cbn.
  destruct (Nat.eqb_spec n p) as [->|X]; [|destruct (assoc a n); reflexivity]. now rewrite assoc_none.
Qed.
Lemma combine_rev {A B} (a : list A) : forall b : list B, length a = length b -> combine (rev a) (rev b) = rev (combine a b).
Proof.
  induction a as [|x a IH]; intros [|y b] L; cbn in *; try discriminate; auto. injection L as L. rewrite <- IH by exact L.
  assert (L2 : length (rev a) = length (rev b)) by (rewrite !rev_length; exact L). clear IH L. revert L2. generalize (rev a) (rev b). clear. intros a b. revert b.
  induction a as [|z a IH]; intros [|w b] L; cbn in *; try discriminate; auto. f_equal. apply IH. now injection L.
Qed.
Lemma combine_fst {A B} (a : list A) : forall b : list B, length a = length b -> map fst (combine a b) = a.
Proof. induction a as [|x a IH]; intros [|y b] L; cbn in *; try discriminate; auto. f_equal. apply IH. now injection L. Qed.
Lemma combine_snd {A B} (a : list A) : forall b : list B, length a = length b -> map snd (combine a b) = b.
Proof. induction a as [|x a IH]; intros [|y b] L; cbn in *; try discriminate; auto. f_equal. apply IH. now injection L. Qed.
Lemma lookup_assoc qs : forall ws n k, length qs = length ws ->
  match assoc (combine qs ws) n with
  | None => lookup_ix qs n k = None
  | Some v => exists ix, lookup_ix qs n k = Some (k + ix) /\ get_macro_arg ix ws = Some v
  end.
Proof.
  induction qs as [|q qs IH]; intros [|w ws] n k L; cbn in *; try discriminate; auto.
  rewrite (Nat.eqb_sym q n). destruct (n =? q).
  - exists 0. rewrite Nat.add_0_r. auto.
  - specialize (IH ws n (S k) ltac:(now injection L)). destruct (assoc (combine qs ws) n) as [v|]; auto.
    destruct IH as (ix & A & B). exists (S ix). split; [rewrite A; f_equal; lia|exact B].
Qed.
Lemma lookup_bind ps vs n : NoDup ps -> length ps = length vs ->
  match bind_all ps vs n with
  | None => lookup_ix (rev ps) n 0 = None
  | Some v => exists ix, lookup_ix (rev ps) n 0 = Some ix /\ get_macro_arg ix (rev vs) = Some v
  end.
Proof.
  intros N L. rewrite bind_all_assoc. rewrite <- assoc_rev by (rewrite combine_fst; auto). rewrite <- combine_rev by auto.
  assert (X := lookup_assoc (rev ps) (rev vs) n 0). rewrite !rev_length in X. specialize (X L). exact X.
Qed.
(* the same, for other values in the same places *)
Lemma bind_two ps vs ws n v : NoDup ps -> length ps = length vs -> length ps = length ws -> bind_all ps vs n = Some v ->
  exists w, bind_all ps ws n = Some w /\ In (v, w) (combine vs ws).
Proof.
  intros _. revert vs ws. induction ps as [|p ps IH]; intros [|v0 vs] [|w0 ws] L1 L2 H; cbn in *; try discriminate.
  destruct (n =? p).
  - inversion H; subst. eauto.
  - destruct (IH vs ws ltac:(now injection L1) ltac:(now injection L2) H) as (w & A & B). eauto.
Qed.

Section Main.
  Variable defs : name -> option mdef.
  Let tab := table_of defs.
  Notation emits := (emits tab).
  Notation conv qs := (map (lookup_macro_token qs)).
  Definition plain (ts : list mtok) := Forall (fun t => match t with TT _ _ => True | TId n => defs n = None | _ => False end) ts.
  Definition playable K Hp v ts := forall ex st r, (forall m, In m (flat_map cnames st) -> In m Hp) -> length st + K <= 59 ->
    emits ex (St (Ctx v [] None) st r) ts (St (Ctx [] [] None) st r).
  Definition env_ok K Hp qs (rho : bind) avs := forall n, match rho n with
    | None => lookup_ix qs n 0 = None
    | Some ts => exists ix v, lookup_ix qs n 0 = Some ix /\ get_macro_arg ix avs = Some v /\ playable K Hp v ts
    end.
  Lemma tab_none n : defs n = None -> tab n = None.
  Proof. intros H. unfold tab, table_of. now rewrite H. Qed.
  Lemma plain_emits ts : plain ts -> forall ex l a i st r, emits ex (St (Ctx (ts ++ l) a i) st r) ts (St (Ctx l a i) st r).
  Proof.
    induction 1 as [|t ts Ht _ IH]; intros ex l a i st r; [apply em_nil, runs_refl|]. cbn [app].
    eapply em_cons; [|apply IH]. destruct t; try contradiction; [apply step_id; now apply tab_none|apply step_tt].
  Qed.
  Lemma plain_playable K Hp ts : plain ts -> playable K Hp ts ts.
  Proof. intros P ex st r _ _. rewrite <- (app_nil_r ts) at 1. now apply plain_emits. Qed.
  Lemma plain_app a b : plain a -> plain b -> plain (a ++ b).
  Proof. apply Forall_app_2 || (intros; apply Forall_app; auto). Qed.

  Lemma all_plain :
    (forall b scan H rho its ts, expand defs b scan H rho its ts -> scan = false -> (forall n v, rho n = Some v -> plain v) -> plain ts) /\
    (forall b scan H rho it ts, expand1 defs b scan H rho it ts -> scan = false -> (forall n v, rho n = Some v -> plain v) -> plain ts) /\
    (forall b scan H rho args vs, expands defs b scan H rho args vs -> scan = false -> (forall n v, rho n = Some v -> plain v) -> Forall plain vs).
  Proof.
    apply (expand_all defs
      (fun b scan H rho its ts _ => scan = false -> (forall n v, rho n = Some v -> plain v) -> plain ts)
      (fun b scan H rho it ts _ => scan = false -> (forall n v, rho n = Some v -> plain v) -> plain ts)
      (fun b scan H rho args vs _ => scan = false -> (forall n v, rho n = Some v -> plain v) -> Forall plain vs)); intros; try discriminate.
    - constructor.
    - apply plain_app; auto.
    - repeat constructor.
    - repeat constructor. unfold is_macro in n0. destruct (defs n); [exfalso; apply n0; discriminate|reflexivity].
    - eauto.
    - apply H0; auto. intros ? ? X. discriminate.
    - apply H1; auto. intros p v X. rewrite bind_all_assoc in X. apply assoc_in in X as [_ X]. destruct a as (_ & LL & _). rewrite combine_snd in X by auto.
      specialize (H0 eq_refl H3). rewrite Forall_forall in H0. auto.
    - constructor.
    - constructor; auto.
  Qed.

  Definition ctx_ok (b : nat) (scan : bool) (H : list name) (Hp : list name) (K : nat) (i : option name) (st : list ctx) : Prop :=
    (forall m, In m (names (Ctx [] [] i) st) -> In m H) /\
    (scan = true -> i <> None /\ forall n, In n H -> In n (names (Ctx [] [] i) st)) /\
    (forall m, In m (names (Ctx [] [] i) st) -> In m Hp) /\ length st + b <= 59 /\ (b = 0 \/ length st + 1 + K <= 59).
  Lemma flats_app a b : flats (a ++ b) = flats a ++ flats b.
  Proof. unfold flats. apply flat_map_app. Qed.
  Lemma conv_lp qs : lookup_macro_token qs LP = LP. Proof. reflexivity. Qed.
  Lemma macro_in n : is_macro defs n -> exists d, defs n = Some d.
  Proof. unfold is_macro. destruct (defs n) as [d|]; [eauto|congruence]. Qed.
  Lemma env_none K Hp : env_ok K Hp [] no_bind [].
  Proof. intros n. reflexivity. Qed.

  Lemma main :
    (forall b scan H rho its ts, expand defs b scan H rho its ts -> forall qs avs i st l r ex Hp K, ctx_ok b scan H Hp K i st -> env_ok K Hp qs rho avs -> (forall n v, rho n = Some v -> plain v) ->
      emits ex (St (Ctx (conv qs (flats its) ++ l) avs i) st r) ts (St (Ctx l avs i) st r)) /\
    (forall b scan H rho it ts, expand1 defs b scan H rho it ts -> forall qs avs i st l r ex Hp K, ctx_ok b scan H Hp K i st -> env_ok K Hp qs rho avs -> (forall n v, rho n = Some v -> plain v) ->
      emits ex (St (Ctx (conv qs (flat it) ++ l) avs i) st r) ts (St (Ctx l avs i) st r)) /\
    (forall b scan H rho args vs, expands defs b scan H rho args vs -> forall qs avs i st l r ex Hp K, ctx_ok b scan H Hp K i st -> env_ok K Hp qs rho avs -> (forall n v, rho n = Some v -> plain v) ->
      emits ex (St (Ctx (conv qs (join (map flats args)) ++ l) avs i) st r) (join vs) (St (Ctx l avs i) st r)).
  Proof.
    apply (expand_all defs
      (fun b scan H rho its ts _ => forall qs avs i st l r ex Hp K, ctx_ok b scan H Hp K i st -> env_ok K Hp qs rho avs -> (forall n v, rho n = Some v -> plain v) ->
        emits ex (St (Ctx (conv qs (flats its) ++ l) avs i) st r) ts (St (Ctx l avs i) st r))
      (fun b scan H rho it ts _ => forall qs avs i st l r ex Hp K, ctx_ok b scan H Hp K i st -> env_ok K Hp qs rho avs -> (forall n v, rho n = Some v -> plain v) ->
        emits ex (St (Ctx (conv qs (flat it) ++ l) avs i) st r) ts (St (Ctx l avs i) st r))
      (fun b scan H rho args vs _ => forall qs avs i st l r ex Hp K, ctx_ok b scan H Hp K i st -> env_ok K Hp qs rho avs -> (forall n v, rho n = Some v -> plain v) ->
        emits ex (St (Ctx (conv qs (join (map flats args)) ++ l) avs i) st r) (join vs) (St (Ctx l avs i) st r))).
    - intros. apply em_nil, runs_refl.
    - intros b scan H rho it its t ts _ IH1 _ IH2 qs avs i st l r ex Hp K C E P.
      change (flats (it :: its)) with (flat it ++ flats its). rewrite map_app, <- app_assoc. eapply emits_app; [eapply IH1; eauto|eapply IH2; eauto].
    - intros b scan H rho c v qs avs i st l r ex Hp K C E P. cbn. apply emits_one, step_tt.
    - intros b scan H rho n NM RN qs avs i st l r ex Hp K C E P. cbn. specialize (E n). rewrite RN in E. rewrite E. apply emits_one, step_id.
      apply tab_none. unfold is_macro in NM. destruct (defs n); [exfalso; apply NM; discriminate|reflexivity].
    - intros b scan H rho n ts RN qs avs i st l r ex Hp K (C1 & C2 & C3 & C4 & C5) E P. cbn. specialize (E n). rewrite RN in E. destruct E as (ix & v & E1 & E2 & E3). rewrite E1.
      rewrite <- (app_nil_r ts). eapply emits_runs; [apply step_arg; [exact E2|lia]|]. eapply emits_app.
      + apply E3; [|cbn [List.length]; lia]. intros m M. apply C3. unfold names, cnames. exact M.
      + apply em_nil. apply step_pop.
    - intros b H rho n IN RN IM qs avs i st l r ex Hp K (C1 & C2 & C3 & C4 & C5) E P. cbn. specialize (E n). rewrite RN in E. rewrite E. apply emits_one.
      destruct (macro_in n IM) as (d & D). destruct (C2 eq_refl) as (I1 & I2).
      eapply try_hidden; [|apply gt_macro_lst; unfold tab, table_of; rewrite D; reflexivity]. apply already_true; [exact I1|]. apply I2, IN.
    - intros b scan H rho n body its ts NI RN DF FL _ IH qs avs i st l r ex Hp K (C1 & C2 & C3 & C4 & C5) E P. cbn. specialize (E n). rewrite RN in E. rewrite E.
      rewrite <- (app_nil_r ts). eapply emits_runs.
      { eapply try_obj; [| | |apply gt_macro_lst; unfold tab, table_of; rewrite DF; reflexivity]; [reflexivity| |lia]. apply (already_false n _ H); [exact C1|exact NI]. }
      cbn [m_toks handle_define d_params d_body]. eapply emits_app.
      + unfold read_macro_tokens. rewrite <- FL. rewrite <- (app_nil_r (conv [] (flats its))).
        apply (IH [] [] (Some n) (Ctx l avs i :: st) [] r ex (n :: H) 0); [|exact (env_none 0 (n :: H))|intros ? ? X; discriminate].
        repeat split.
        * intros m M. cbn in M. destruct M as [->|M]; [now left|]. right. apply C1. exact M.
        * discriminate.
        * intros m M. cbn. destruct M as [->|M]; [now left|]. right. destruct (C2 H0) as (_ & X). apply X, M.
        * intros m M. cbn in M. destruct M as [->|M]; [now left|]. right. apply C1. exact M.
        * cbn [List.length]. lia.
        * cbn [List.length]. destruct b; [now left|right]. lia.
      + apply em_nil. apply step_pop.
    - intros b H rho n args vs IN RN IM _ IH qs avs i st l r ex Hp K C E P.
      change (flat (ICall n args)) with (TId n :: LP :: join (map flats args) ++ [RP]). cbn [map]. rewrite map_app. cbn [map app]. rewrite <- app_assoc. cbn [app].
      assert (EN := E n). rewrite RN in EN. unfold lookup_macro_token at 1. rewrite EN. destruct (macro_in n IM) as (d & D). destruct C as (C1 & C2 & C3 & C4 & C5). destruct (C2 eq_refl) as (I1 & I2).
      eapply em_cons. { eapply try_hidden; [|apply gt_macro_lst; unfold tab, table_of; rewrite D; reflexivity]. apply already_true; [exact I1|]. apply I2, IN. }
      eapply em_cons; [apply step_tt|]. eapply emits_app.
      + eapply (IH qs avs i st (RP :: l) r ex Hp K); [repeat split; auto; apply C2; auto|exact E|exact P].
      + apply emits_one, step_tt.
    - intros b scan H rho n args vs ps body its ts NI RN DF ND XS IHa AV AR FL _ IHb qs avs i st l r ex Hp K C E P.
      change (flat (ICall n args)) with (TId n :: LP :: join (map flats args) ++ [RP]). cbn [map]. rewrite map_app. cbn [map app]. rewrite <- app_assoc. cbn [app].
      assert (EN := E n). rewrite RN in EN. unfold lookup_macro_token at 1. rewrite EN. destruct C as (C1 & C2 & C3 & C4 & C5).
      destruct AV as (AV1 & AV2 & AV3).
      assert (PV : Forall plain vs) by (exact (proj2 (proj2 all_plain) _ _ _ _ _ _ XS eq_refl P)).
      rewrite <- (app_nil_r ts). eapply emits_runs.
      { eapply (try_call tab ex n (handle_define (Def (Some ps) body)) _ (Ctx (LP :: conv qs (join (map flats args)) ++ RP :: l) avs i) st r _ vs (Ctx l avs i) st r);
          [cbn; now rewrite AV2|apply (already_false n _ H); [exact C1|exact NI]|lia|apply step_tt| |apply gt_macro_lst; unfold tab, table_of; rewrite DF; reflexivity].
        eapply args_done; [|apply step_tt|exact AV1|exact AV3].
        eapply (IHa qs avs i st (RP :: l) r false Hp K); [|exact E|exact P]. repeat split.
        - intros m M. right. apply C1, M.
        - discriminate.
        - discriminate.
        - exact C3.
        - lia.
        - destruct C5 as [C5|C5]; [discriminate|]. now right. }
      cbn [m_toks handle_define d_params d_body]. eapply emits_app.
      + unfold read_macro_tokens. rewrite <- FL. rewrite <- (app_nil_r (conv (rev ps) (flats its))).
        apply (IHb (rev ps) (rev vs) (Some n) (Ctx l avs i :: st) [] r ex (n :: H) (pred b)).
        * repeat split.
          -- intros m M. cbn in M. destruct M as [->|M]; [now left|]. right. apply C1. exact M.
          -- discriminate.
          -- intros m M. cbn. destruct M as [->|M]; [now left|]. right. destruct (C2 H0) as (_ & X). apply X, M.
          -- intros m M. cbn in M. destruct M as [->|M]; [now left|]. right. apply C1. exact M.
          -- cbn [List.length]. lia.
          -- cbn [List.length]. destruct b; [now left|right]. cbn [pred]. lia.
        * intros p. assert (X := lookup_bind ps vs p ND (eq_sym AV2)). destruct (bind_all ps vs p) as [v|] eqn:BE; [|exact X].
          destruct X as (ix & X1 & X2). exists ix, v. split; [exact X1|]. split; [exact X2|]. apply plain_playable.
          rewrite bind_all_assoc in BE. apply assoc_in in BE as [_ BE]. rewrite combine_snd in BE by auto. rewrite Forall_forall in PV. auto.
        * intros p v BE. rewrite bind_all_assoc in BE. apply assoc_in in BE as [_ BE]. rewrite combine_snd in BE by auto. rewrite Forall_forall in PV. auto.
      + apply em_nil. apply step_pop.
    - intros. apply em_nil, runs_refl.
    - intros b scan H rho a args v vs _ IH1 XS IH2 qs avs i st l r ex Hp K C E P. destruct args as [|a2 args].
      + inversion XS; subst. cbn [map join]. eapply IH1; eauto.
      + inversion XS as [|? ? ? ? ? ? v2 vs2 X1 X2]; subst. change (join (map flats (a :: a2 :: args))) with (flats a ++ CM :: join (map flats (a2 :: args))).
        change (join (v :: v2 :: vs2)) with (v ++ CM :: join (v2 :: vs2)). rewrite map_app, <- app_assoc. eapply emits_app; [eapply IH1; eauto|].
        cbn [map app]. eapply em_cons; [apply step_tt|]. eapply IH2; eauto.
  Qed.
End Main.
