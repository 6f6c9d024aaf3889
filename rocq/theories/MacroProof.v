(** * Macro expansion: proofs *)
From Coq Require Import ZArith List Lia Bool Arith.
From Verif Require Import Macro.
Import ListNotations.
Local Notation length := List.length.

Section Table.
  Variable tab : mtable.
  Notation gt := (get_tok tab).
  Lemma gt_eq f ex s : gt (S f) ex s =
    (let try n m s1 :=
          match attempt_macro_expansion (gt f ex) (macro_args tab f) n m s1 with
          | ATok t s2 => RTok t s2
          | AGo s2 => gt f ex s2
          | AFail => RErr
          | ANoFuel => RFuel
          end in
        match c_lst (cur s) with
        | t :: l =>
            let s1 := St (Ctx l (c_args (cur s)) (c_ident (cur s))) (stack s) (inp s) in
            match t with
            | TId n => match tab n with Some m => try n m s1 | None => RTok t s1 end
            | TArg i =>
                match get_macro_arg i (c_args (cur s)) with
                | Some a => match begin_macro_expansion None a [] s1 with Some s2 => gt f ex s2 | None => RErr end
                | None => RErr
                end
            | _ => RTok t s1
            end
        | [] =>
            match stack s with
            | c :: st => gt f ex (St c st (inp s))
            | [] =>
                match inp s with
                | [] => RTok TEof s
                | t :: r =>
                    let s1 := St (cur s) (stack s) r in
                    match t with
                    | TId n => match tab n with
                               | Some m => if ex then try n m s1 else RTok t s1
                               | None => RTok t s1
                               end
                    | _ => RTok t s1
                    end
                end
            end
        end).
  Proof. reflexivity. Qed.
  Lemma ma_eq f s : macro_args tab (S f) s = match gt f false s with RTok t s1 => args_loop tab f [] false t s1 | RErr => AErr | RFuel => AFuel end.
  Proof. reflexivity. Qed.
  Lemma al_eq f args p t s : args_loop tab (S f) args p t s =
        if is_rp t then AOk (if p then [] :: args else args) s
        else if is_eof t then AErr
        else if is_cm t then
          match gt f false s with
          | RTok t1 s1 => args_loop tab f (if p then [] :: args else args) true t1 s1
          | RErr => AErr
          | RFuel => AFuel
          end
        else match macro_parse_argument tab f 0 t s with
             | POk arg t1 s1 => args_loop tab f (arg :: args) false t1 s1
             | PErr => AErr
             | PFuel => AFuel
             end.
  Proof. reflexivity. Qed.
  Lemma mp_eq f d t s : macro_parse_argument tab (S f) d t s =
        if ((0 <? d)%Z || negb (is_cm t || is_rp t)) && negb (is_eof t) then
          let d1 := if is_lp t then (d + 1)%Z else d in
          let d2 := if is_rp t then (d1 - 1)%Z else d1 in
          match gt f false s with
          | RTok t1 s1 =>
              match macro_parse_argument tab f d2 t1 s1 with
              | POk arg t2 s2 => POk (t :: arg) t2 s2
              | e => e
              end
          | RErr => PErr
          | RFuel => PFuel
          end
        else POk [] t s.
  Proof. reflexivity. Qed.

  (** ** Fuel *)
  Definition mono_at f := forall f', f <= f' ->
    (forall ex s, gt f ex s <> RFuel -> gt f' ex s = gt f ex s) /\
    (forall s, macro_args tab f s <> AFuel -> macro_args tab f' s = macro_args tab f s) /\
    (forall a p t s, args_loop tab f a p t s <> AFuel -> args_loop tab f' a p t s = args_loop tab f a p t s) /\
    (forall d t s, macro_parse_argument tab f d t s <> PFuel -> macro_parse_argument tab f' d t s = macro_parse_argument tab f d t s).
  Lemma attempt_mono g g' ga ga' n m s : (forall s, g s <> RFuel -> g' s = g s) -> (forall s, ga s <> AFuel -> ga' s = ga s) ->
    attempt_macro_expansion g ga n m s <> ANoFuel -> attempt_macro_expansion g' ga' n m s = attempt_macro_expansion g ga n m s.
  Proof.
    intros G A. unfold attempt_macro_expansion. destruct (macro_is_already_expanding n s); [reflexivity|]. destruct (m_argc m) as [argc|]; [|reflexivity].
    intros H. assert (E : g' s = g s). { apply G. intros E. rewrite E in H. now apply H. }
    rewrite E. destruct (g s) as [t s1| |]; try reflexivity. destruct (is_lp t); [|reflexivity].
    assert (E2 : ga' s1 = ga s1). { apply A. intros E2. rewrite E2 in H. now apply H. } rewrite E2. reflexivity.
  Qed.
  Lemma mono f : mono_at f.
  Proof.
    induction f as [|f IH]; intros f' L.
    - repeat split; intros; cbn in *; congruence.
    - destruct f' as [|f']; [lia|]. destruct (IH f' ltac:(lia)) as (G & A & Lo & P).
      assert (TRY : forall ex n m s1, match attempt_macro_expansion (gt f ex) (macro_args tab f) n m s1 with ATok t s2 => RTok t s2 | AGo s2 => gt f ex s2 | AFail => RErr | ANoFuel => RFuel end <> RFuel ->
        match attempt_macro_expansion (gt f' ex) (macro_args tab f') n m s1 with ATok t s2 => RTok t s2 | AGo s2 => gt f' ex s2 | AFail => RErr | ANoFuel => RFuel end =
        match attempt_macro_expansion (gt f ex) (macro_args tab f) n m s1 with ATok t s2 => RTok t s2 | AGo s2 => gt f ex s2 | AFail => RErr | ANoFuel => RFuel end).
      { intros ex n m s1 H. rewrite (attempt_mono (gt f ex) (gt f' ex) (macro_args tab f) (macro_args tab f')).
        - destruct (attempt_macro_expansion (gt f ex) (macro_args tab f) n m s1); try reflexivity. now apply G.
        - intros; now apply G.
        - intros; now apply A.
        - intros E. rewrite E in H. now apply H. }
      repeat split.
      + intros ex s H. rewrite gt_eq in H |- *. rewrite gt_eq. cbv zeta in *.
        destruct (c_lst (cur s)) as [|t l].
        * destruct (stack s) as [|c st]; [|now apply G]. destruct (inp s) as [|t r]; [reflexivity|]. destruct t; try reflexivity.
          destruct (tab n); [|reflexivity]. destruct ex; [|reflexivity]. now apply TRY.
        * destruct t; try reflexivity.
          { destruct (tab n); [|reflexivity]. now apply TRY. }
          { destruct (get_macro_arg i (c_args (cur s))); [|reflexivity]. destruct (begin_macro_expansion _ _ _ _); [|reflexivity]. now apply G. }
      + intros s H. rewrite ma_eq in H |- *. rewrite ma_eq. 
        assert (E : gt f' false s = gt f false s). { apply G. intros E. rewrite E in H. now apply H. }
        rewrite E. destruct (gt f false s); try reflexivity. now apply Lo.
      + intros a p t s H. rewrite al_eq in H |- *. rewrite al_eq. destruct (is_rp t); [reflexivity|]. destruct (is_eof t); [reflexivity|]. destruct (is_cm t).
        * assert (E : gt f' false s = gt f false s). { apply G. intros E. rewrite E in H. now apply H. }
          rewrite E. destruct (gt f false s); try reflexivity. now apply Lo.
        * assert (E : macro_parse_argument tab f' 0 t s = macro_parse_argument tab f 0 t s). { apply P. intros E. rewrite E in H. now apply H. }
          rewrite E. destruct (macro_parse_argument tab f 0 t s); try reflexivity. now apply Lo.
      + intros d t s H. rewrite mp_eq in H |- *. rewrite mp_eq. cbv zeta in *.
        destruct (((0 <? d)%Z || negb (is_cm t || is_rp t)) && negb (is_eof t)); [|reflexivity].
        assert (E : gt f' false s = gt f false s). { apply G. intros E. rewrite E in H. now apply H. }
        rewrite E. destruct (gt f false s) as [t1 s1| |]; try reflexivity.
        match goal with |- match macro_parse_argument tab f' ?x ?y ?z with _ => _ end = _ => assert (E2 : macro_parse_argument tab f' x y z = macro_parse_argument tab f x y z) end.
        { apply P. intros E2. rewrite E2 in H. now apply H. }
        rewrite E2. reflexivity.
  Qed.

  (** ** Eventual results *)
  Definition evt ex s o := exists k, forall f, k <= f -> gt f ex s = o.
  Definition evargs s o := exists k, forall f, k <= f -> macro_args tab f s = o.
  Definition runs ex s s' := forall o, evt ex s' o -> evt ex s o.
  Inductive emits (ex : bool) : state -> list mtok -> state -> Prop :=
  | em_nil s s' : runs ex s s' -> emits ex s [] s'
  | em_cons s t s1 ts s' : evt ex s (RTok t s1) -> emits ex s1 ts s' -> emits ex s (t :: ts) s'.
  Lemma runs_refl ex s : runs ex s s.
  Proof. intros o H. exact H. Qed.
  Lemma emits_runs ex s s1 ts s' : runs ex s s1 -> emits ex s1 ts s' -> emits ex s ts s'.
  Proof.
    intros R E. destruct E as [s1 s' R'|s1 t s2 ts s' V E].
    - apply em_nil. intros o H. apply R, R', H.
    - apply em_cons with s2; auto.
  Qed.
  Lemma emits_app ex s ts1 s1 ts2 s2 : emits ex s ts1 s1 -> emits ex s1 ts2 s2 -> emits ex s (ts1 ++ ts2) s2.
  Proof.
    intros A B. induction A as [s s1 R|s t s0 ts s1 V E IH]; cbn.
    - eapply emits_runs; eauto.
    - apply em_cons with s0; auto.
  Qed.
  Lemma emits_one ex s t s' : evt ex s (RTok t s') -> emits ex s [t] s'.
  Proof. intros H. apply em_cons with s'; auto. apply em_nil, runs_refl. Qed.
  Lemma emits_split ex v : forall t r s s1, emits ex s (v ++ t :: r) s1 -> exists s3 s4, emits ex s v s3 /\ evt ex s3 (RTok t s4) /\ emits ex s4 r s1.
  Proof.
    induction v as [|u v IHv]; intros t r s s1 E.
    - inversion E as [|? ? s2 ? ? V2 E2]; subst. exists s, s2. split; [apply em_nil, runs_refl|]. split; auto.
    - inversion E as [|? ? s2 ? ? V2 E2]; subst. destruct (IHv t r s2 s1 E2) as (s3 & s4 & A & B & C). exists s3, s4. split; [apply em_cons with s2; auto|]. auto.
  Qed.
  Lemma evt_S ex s o : (exists k, forall f, k <= f -> gt (S f) ex s = o) -> evt ex s o.
  Proof. intros (k & H). exists (S k). intros f L. destruct f as [|f]; [lia|]. apply H. lia. Qed.
  Lemma runs_S ex s s' : (forall f, gt (S f) ex s = gt f ex s') -> runs ex s s'.
  Proof. intros H o (k & V). apply evt_S. exists k. intros f L. rewrite H. auto. Qed.

  (** ** Arguments *)
  Definition stop (t : mtok) : bool := is_cm t || is_rp t.
  Lemma tt_excl t : (is_lp t = true -> is_rp t = false /\ is_cm t = false /\ is_eof t = false) /\ (is_rp t = true -> is_cm t = false /\ is_eof t = false /\ is_lp t = false) /\ (is_cm t = true -> is_eof t = false /\ is_lp t = false /\ is_rp t = false).
  Proof. unfold is_lp, is_rp, is_cm. destruct t as [n|i| |c v]; cbn [is_tt is_eof]; repeat split; intros; try discriminate; try lia; try reflexivity. Qed.
  Definition evparse d t s o := exists k, forall f, k <= f -> macro_parse_argument tab f d t s = o.
  Lemma parse_arg ts : forall d t s s1 t' s', emits false s ts s1 -> evt false s1 (RTok t' s') -> arg_ok d (t :: ts) = true -> stop t' = true ->
    (d = 0 -> stop t = false) -> evparse (Z.of_nat d) t s (POk (t :: ts) t' s').
  Proof.
    induction ts as [|u ts IH]; intros d t s s1 t' s' E V A ST H0.
    - inversion E as [? ? R|]; subst. destruct (R _ V) as (k & K). exists (S (S k)). intros f L. destruct f as [|[|f]]; try lia. rewrite mp_eq. cbv zeta.
      assert (C : ((0 <? Z.of_nat d)%Z || negb (is_cm t || is_rp t)) && negb (is_eof t) = true).
      { destruct d as [|d]; [|replace (0 <? Z.of_nat (S d))%Z with true by (symmetry; apply Z.ltb_lt; lia)].
        - specialize (H0 eq_refl). unfold stop in H0. rewrite H0. cbn in A. destruct (is_lp t) eqn:X; [discriminate|]. destruct (is_rp t); [discriminate|]. destruct (is_cm t); [discriminate|]. destruct (is_eof t); [discriminate|]. reflexivity.
        - cbn in A. destruct (is_lp t) eqn:X; [discriminate|]. destruct (is_rp t) eqn:Y; [|destruct (is_cm t), (is_eof t); discriminate]. destruct (tt_excl t) as (_ & T & _). destruct (T Y) as (_ & -> & _). reflexivity. }
      rewrite C. rewrite K by lia.
      assert (D : (if is_rp t then (if is_lp t then Z.of_nat d + 1 else Z.of_nat d) - 1 else if is_lp t then Z.of_nat d + 1 else Z.of_nat d)%Z = 0%Z).
      { cbn in A. destruct (is_lp t) eqn:X; [discriminate|]. destruct (is_rp t) eqn:Y.
        - destruct d as [|[|d]]; try discriminate. reflexivity.
        - destruct d; [reflexivity|]. destruct (is_cm t), (is_eof t); discriminate. }
      rewrite D. rewrite mp_eq. cbv zeta. unfold stop in ST. rewrite ST. reflexivity.
    - inversion E as [|? ? s2 ? ? V2 E2]; subst.
      assert (STEP : exists d', arg_ok d' (u :: ts) = true /\ (d' = 0 -> stop u = false) /\
        (if is_rp t then (if is_lp t then Z.of_nat d + 1 else Z.of_nat d) - 1 else if is_lp t then Z.of_nat d + 1 else Z.of_nat d)%Z = Z.of_nat d' /\
        ((0 <? Z.of_nat d)%Z || negb (is_cm t || is_rp t)) && negb (is_eof t) = true).
      { assert (U : forall d', arg_ok d' (u :: ts) = true -> d' = 0 -> stop u = false).
        { intros d' B ->. unfold stop. cbn in B. destruct (tt_excl u) as (T1 & T2 & T3). destruct (is_lp u) eqn:X1.
          - destruct (T1 eq_refl) as (-> & -> & _). reflexivity.
          - destruct (is_rp u) eqn:X2; [discriminate|]. destruct (is_cm u); [discriminate|]. reflexivity. }
        assert (C : d = 0 -> negb (is_cm t || is_rp t) = true). { intros Z0. specialize (H0 Z0). unfold stop in H0. now rewrite H0. }
        change (arg_ok d (t :: u :: ts)) with (if is_lp t then arg_ok (S d) (u :: ts) else if is_rp t then match d with S d' => arg_ok d' (u :: ts) | O => false end
              else if is_cm t then negb (Nat.eqb d 0) && arg_ok d (u :: ts) else negb (is_eof t) && arg_ok d (u :: ts)) in A.
        destruct (tt_excl t) as (T1 & T2 & T3). destruct (is_lp t) eqn:X1.
        - destruct (T1 eq_refl) as (Y1 & Y2 & Y3). exists (S d). rewrite Y1, Y2, Y3. split; [exact A|]. split; [apply U; exact A|]. split; [lia|]. cbn [orb negb andb]. rewrite orb_true_r. reflexivity.
        - destruct (is_rp t) eqn:X2.
          + destruct d as [|d']; [discriminate|]. destruct (T2 eq_refl) as (Y1 & Y2 & Y3). exists d'. rewrite Y2. split; [exact A|]. split; [apply U; exact A|]. split; [lia|].
            replace (0 <? Z.of_nat (S d'))%Z with true by (symmetry; apply Z.ltb_lt; lia). reflexivity.
          + destruct (is_cm t) eqn:X3.
            * apply andb_prop in A as [A1 A2]. exists d. destruct (T3 eq_refl) as (Y1 & _). rewrite Y1. split; [exact A2|]. split; [apply U; exact A2|]. split; [reflexivity|].
              destruct d; [discriminate|]. replace (0 <? Z.of_nat (S d))%Z with true by (symmetry; apply Z.ltb_lt; lia). reflexivity.
            * apply andb_prop in A as [A1 A2]. exists d. split; [exact A2|]. split; [apply U; exact A2|]. split; [reflexivity|]. rewrite A1. cbn [orb negb]. rewrite orb_true_r. reflexivity. }
      destruct STEP as (d' & A' & U & D & C). destruct (IH d' u s2 s1 t' s' E2 V A' ST U) as (k & K). destruct V2 as (k2 & K2).
      exists (S (k + k2)). intros f L. destruct f as [|f]; [lia|]. rewrite mp_eq. cbv zeta. rewrite C. rewrite K2 by lia. rewrite D. rewrite K by lia. reflexivity.
  Qed.
  Definition evloop a p t s o := exists k, forall f, k <= f -> args_loop tab f a p t s = o.
  Lemma loop_rp a p t s : is_rp t = true -> evloop a p t s (AOk (if p then [] :: a else a) s).
  Proof. intros H. exists 1. intros f L. destruct f as [|f]; [lia|]. rewrite al_eq, H. reflexivity. Qed.
  Lemma is_CM : is_cm CM = true. Proof. reflexivity. Qed.
  Lemma is_RP : is_rp RP = true. Proof. reflexivity. Qed.
  (* what follows a comma, or what starts the list *)
  Lemma args_read vs : forall a (p : bool) s s1 s', emits false s (join vs) s1 -> evt false s1 (RTok RP s') -> vs <> [] -> Forall (fun v => arg_ok 0 v = true) vs ->
    (p = true \/ match vs with [] :: _ => False | _ => True end) ->
    exists k, forall f, k <= f -> match gt f false s with RTok t s2 => args_loop tab f a p t s2 | RErr => AErr | RFuel => AFuel end = AOk (rev vs ++ a) s'.
  Proof.
    induction vs as [|v vs IH]; intros a p s s1 s' E V NE F P; [congruence|]. inversion F as [|? ? Fv Fvs]; subst.
    destruct vs as [|w vs].
    - cbn in E. destruct v as [|t v].
      + destruct P as [->|[]]. inversion E as [? ? R|]; subst. destruct (R _ V) as (k & K). destruct (loop_rp a true RP s' eq_refl) as (k2 & K2).
        exists (k + k2). intros f L. rewrite K by lia. apply K2; lia.
      + inversion E as [|? ? s2 ? ? V2 E2]; subst. destruct V2 as (k & K).
        assert (ST : stop t = false). { unfold stop. cbn in Fv. destruct (tt_excl t) as (T1 & T2 & T3). destruct (is_lp t) eqn:X1.
          - destruct (T1 eq_refl) as (-> & -> & _). reflexivity.
          - destruct (is_rp t); [discriminate|]. destruct (is_cm t); [discriminate|]. reflexivity. }
        destruct (parse_arg v 0 t s2 s1 RP s' E2 V Fv eq_refl (fun _ => ST)) as (k2 & K2). destruct (loop_rp ((t :: v) :: a) false RP s' eq_refl) as (k3 & K3).
        exists (S (k + k2 + k3)). intros f L. rewrite K by lia. destruct f as [|f]; [lia|]. rewrite al_eq. unfold stop in ST. apply orb_false_iff in ST as [S1 S2]. rewrite S1, S2.
        assert (EO : is_eof t = false). { destruct t; cbn in *; try reflexivity. discriminate. }
        rewrite EO. cbn [Z.of_nat] in K2. rewrite K2 by lia. apply K3. lia.
    - assert (JE : join (v :: w :: vs) = v ++ CM :: join (w :: vs)) by reflexivity. rewrite JE in E.
      assert (SPLIT : exists s3 s4, emits false s v s3 /\ evt false s3 (RTok CM s4) /\ emits false s4 (join (w :: vs)) s1).
      { exact (emits_split false v CM (join (w :: vs)) s s1 E). }
      destruct SPLIT as (s3 & s4 & E1 & Vc & E2).
      destruct v as [|t v].
      + destruct P as [->|[]]. inversion E1 as [? ? R|]; subst. destruct (R _ Vc) as (k & K).
        destruct (IH ([] :: a) true s4 s1 s' E2 V ltac:(discriminate) Fvs (or_introl eq_refl)) as (k2 & K2).
        exists (S (k + k2)). intros f L. rewrite K by lia. destruct f as [|f]; [lia|]. rewrite al_eq. cbn [is_rp is_eof is_tt CM]. change (is_tt 41 CM) with false. change (is_tt 44 CM) with true. change (is_rp CM) with false. change (is_cm CM) with true. cbv iota.
        rewrite K2 by lia. cbn [rev]. rewrite <- !app_assoc. reflexivity.
      + inversion E1 as [|? ? s2 ? ? V2 E3]; subst. destruct V2 as (k & K).
        assert (ST : stop t = false). { unfold stop. cbn in Fv. destruct (tt_excl t) as (T1 & T2 & T3). destruct (is_lp t) eqn:X1.
          - destruct (T1 eq_refl) as (-> & -> & _). reflexivity.
          - destruct (is_rp t); [discriminate|]. destruct (is_cm t); [discriminate|]. reflexivity. }
        destruct (parse_arg v 0 t s2 s3 CM s4 E3 Vc Fv eq_refl (fun _ => ST)) as (k2 & K2).
        destruct (IH ((t :: v) :: a) true s4 s1 s' E2 V ltac:(discriminate) Fvs (or_introl eq_refl)) as (k3 & K3).
        exists (S (S (k + k2 + k3))). intros f L. rewrite K by lia. destruct f as [|[|f]]; try lia. rewrite al_eq. unfold stop in ST. apply orb_false_iff in ST as [S1 S2]. rewrite S1, S2.
        assert (EO : is_eof t = false). { destruct t; cbn in *; try reflexivity. discriminate. }
        rewrite EO. cbn [Z.of_nat] in K2. rewrite K2 by lia. rewrite al_eq. change (is_rp CM) with false. change (is_eof CM) with false. change (is_cm CM) with true. cbv iota.
        rewrite K3 by lia. cbn [rev]. rewrite <- !app_assoc. reflexivity.
  Qed.
  Lemma args_done vs s s1 s' : emits false s (join vs) s1 -> evt false s1 (RTok RP s') -> Forall (fun v => arg_ok 0 v = true) vs -> match vs with [] :: _ => False | _ => True end ->
    evargs s (AOk (rev vs) s').
  Proof.
    intros E V F P. destruct vs as [|v vs].
    - inversion E as [? ? R|]; subst. destruct (R _ V) as (k & K). destruct (loop_rp [] false RP s' eq_refl) as (k2 & K2).
      exists (S (k + k2)). intros f L. destruct f as [|f]; [lia|]. rewrite ma_eq. rewrite K by lia. apply K2; lia.
    - destruct (args_read (v :: vs) [] false s s1 s' E V ltac:(discriminate) F (or_intror P)) as (k & K).
      exists (S k). intros f L. destruct f as [|f]; [lia|]. rewrite ma_eq. rewrite app_nil_r in K. apply K; lia.
  Qed.
  (** ** Steps of get_tok *)
  Lemma step_tt ex c v l a i st r : evt ex (St (Ctx (TT c v :: l) a i) st r) (RTok (TT c v) (St (Ctx l a i) st r)).
  Proof. apply evt_S. exists 0. intros f _. reflexivity. Qed.
  Lemma step_id ex n l a i st r : tab n = None -> evt ex (St (Ctx (TId n :: l) a i) st r) (RTok (TId n) (St (Ctx l a i) st r)).
  Proof. intros H. apply evt_S. exists 0. intros f _. rewrite gt_eq. cbn. rewrite H. reflexivity. Qed.
  Lemma step_pop ex a i c st r : runs ex (St (Ctx [] a i) (c :: st) r) (St c st r).
  Proof. apply runs_S. intros f. reflexivity. Qed.
  Lemma begin_ok i ts a c st r : length st < 59 -> begin_macro_expansion i ts a (St c st r) = Some (St (Ctx ts a i) (c :: st) r).
  Proof.
    intros H. unfold begin_macro_expansion, MACRO_RECURSION_MAX. cbn [stack cur inp]. destruct (Nat.leb_spec 180 (3 * length st + 3)); [lia|reflexivity].
  Qed.
  Lemma step_arg ex ix v l a i st r : get_macro_arg ix a = Some v -> length st < 59 ->
    runs ex (St (Ctx (TArg ix :: l) a i) st r) (St (Ctx v [] None) (Ctx l a i :: st) r).
  Proof. intros H L. apply runs_S. intros f. rewrite gt_eq. cbn [c_lst cur c_args c_ident stack inp]. rewrite H, begin_ok by exact L. reflexivity. Qed.
  (* the attempt, at a macro that is not being expanded *)
  Lemma try_obj ex n m s c st r : m_argc m = None -> macro_is_already_expanding n (St c st r) = false -> length st < 59 ->
    (forall f, gt (S f) ex s = match attempt_macro_expansion (gt f ex) (macro_args tab f) n m (St c st r) with ATok t s2 => RTok t s2 | AGo s2 => gt f ex s2 | AFail => RErr | ANoFuel => RFuel end) ->
    runs ex s (St (Ctx (m_toks m) [] (Some n)) (c :: st) r).
  Proof. intros M E L G. apply runs_S. intros f. rewrite G. unfold attempt_macro_expansion. rewrite E, M, begin_ok by exact L. reflexivity. Qed.
  Lemma try_call ex n m s c st r s1 vs c2 st2 r2 : m_argc m = Some (length vs) -> macro_is_already_expanding n (St c st r) = false -> length st2 < 59 ->
    evt ex (St c st r) (RTok LP s1) -> evargs s1 (AOk (rev vs) (St c2 st2 r2)) ->
    (forall f, gt (S f) ex s = match attempt_macro_expansion (gt f ex) (macro_args tab f) n m (St c st r) with ATok t s2 => RTok t s2 | AGo s2 => gt f ex s2 | AFail => RErr | ANoFuel => RFuel end) ->
    runs ex s (St (Ctx (m_toks m) (rev vs) (Some n)) (c2 :: st2) r2).
  Proof.
    intros M E L (k1 & K1) (k2 & K2) G o (k & K). exists (S (k + k1 + k2)). intros f F. destruct f as [|f]; [lia|]. rewrite G. unfold attempt_macro_expansion. rewrite E, M.
    rewrite K1 by lia. change (is_lp LP) with true. cbv iota. rewrite K2 by lia. rewrite rev_length, Nat.eqb_refl. rewrite begin_ok by exact L. apply K. lia.
  Qed.
  Lemma try_hidden ex n m s s0 : macro_is_already_expanding n s0 = true ->
    (forall f, gt (S f) ex s = match attempt_macro_expansion (gt f ex) (macro_args tab f) n m s0 with ATok t s2 => RTok t s2 | AGo s2 => gt f ex s2 | AFail => RErr | ANoFuel => RFuel end) ->
    evt ex s (RTok (TId n) s0).
  Proof. intros E G. apply evt_S. exists 0. intros f _. rewrite G. unfold attempt_macro_expansion. rewrite E. reflexivity. Qed.
  Lemma gt_macro_lst ex n m l a i st r : tab n = Some m -> forall f, gt (S f) ex (St (Ctx (TId n :: l) a i) st r) =
    match attempt_macro_expansion (gt f ex) (macro_args tab f) n m (St (Ctx l a i) st r) with ATok t s2 => RTok t s2 | AGo s2 => gt f ex s2 | AFail => RErr | ANoFuel => RFuel end.
  Proof. intros H f. rewrite gt_eq. cbn. rewrite H. reflexivity. Qed.
  Lemma gt_macro_file n m c r : c_lst c = [] -> tab n = Some m -> forall f, gt (S f) true (St c [] (TId n :: r)) =
    match attempt_macro_expansion (gt f true) (macro_args tab f) n m (St c [] r) with ATok t s2 => RTok t s2 | AGo s2 => gt f true s2 | AFail => RErr | ANoFuel => RFuel end.
  Proof. intros E H f. rewrite gt_eq. cbv zeta. cbn [cur stack inp]. rewrite E, H. reflexivity. Qed.

  (** ** Names on the stack *)
  Definition cnames (c : ctx) : list name := match c_ident c with Some n => [n] | None => [] end.
  Definition names (c : ctx) (st : list ctx) : list name := cnames c ++ flat_map cnames st.
  Lemma ident_is_in n c : ident_is n c = true <-> In n (cnames c).
  Proof. unfold ident_is, cnames. destruct (c_ident c) as [m|]; cbn; [rewrite Nat.eqb_eq; intuition|intuition discriminate]. Qed.
  Lemma stack_in n st : existsb (ident_is n) st = true <-> In n (flat_map cnames st).
  Proof. rewrite existsb_exists, in_flat_map. split; intros (c & A & B); exists c; split; auto; now apply ident_is_in. Qed.
  Lemma already_false n s H : (forall m, In m (names (cur s) (stack s)) -> In m H) -> ~ In n H -> macro_is_already_expanding n s = false.
  Proof.
    intros S N. unfold macro_is_already_expanding. destruct (c_ident (cur s)) as [m|] eqn:E; [|reflexivity].
    destruct (Nat.eqb_spec n m) as [->|D]; [exfalso; apply N, S; unfold names, cnames; rewrite E; now left|].
    destruct (existsb (ident_is n) (stack s)) eqn:X; [|reflexivity]. exfalso. apply N, S. unfold names. apply in_or_app. right. now apply stack_in.
  Qed.
  Lemma already_true n s : c_ident (cur s) <> None -> In n (names (cur s) (stack s)) -> macro_is_already_expanding n s = true.
  Proof.
    intros S N. unfold macro_is_already_expanding. unfold names, cnames at 1 in N. destruct (c_ident (cur s)) as [m|] eqn:E; [|congruence].
    cbn in N. destruct N as [->|N]; [now rewrite Nat.eqb_refl|]. apply stack_in in N. rewrite N. apply orb_true_r.
  Qed.
End Table.
