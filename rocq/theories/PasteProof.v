(** * Pasting and stringizing: proofs *)
From Coq Require Import ZArith List Lia Bool Arith.
From Verif Require Import Macro MacroProof Paste.
Import ListNotations.
Local Notation length := List.length.

Section Table.
  Variable tab : mtable.
  Variable pst : mtok -> mtok -> option mtok.
  Variable ns : Z.
  Notation gt2 := (get_tok2 tab pst ns).
  Notation pa2 := (paste_tokens tab pst ns).
  Notation st2 := (stringify tab pst ns).
  Notation ma2 := (macro_args2 tab pst ns).
  Notation al2 := (args_loop2 tab pst ns).
  Notation mp2 := (macro_parse_argument2 tab pst ns).
  Notation string_of := (string_of ns).
  Lemma gt2_eq f ex s : gt2 (S f) ex s =
   (
        let try n m s1 :=
          match attempt2 (gt2 f ex) (ma2 f) n m s1 with
          | A2Tok t s2 => R2Tok t s2
          | A2Go s2 => gt2 f ex s2
          | A2Fail => R2Err
          | A2NoFuel => R2Fuel
          end in
        (* pnut.c:2078-2090, with the token in tok *)
        let go t s1 :=
          match t with
          | TId n => match tab n with Some m => try n m s1 | None => R2Tok t s1 end
          | TArg i =>
              if xa s1 then
                match get_macro_arg i (c_args (cur (base s1))) with
                | Some a => match begin2 None a [] s1 with Some s2 => gt2 f ex s2 | None => R2Err end
                | None => R2Err
                end
              else R2Tok t s1
          | TT c _ => if Z.eqb c 35 then st2 f s1 else R2Tok t s1
          | TEof => R2Tok t s1
          end in
        let pasted r := match r with R2Tok t s1 => go t s1 | e => e end in
        match c_lst (cur (base s)) with
        | t :: l =>
            match l with
            | h :: l' =>
                if is_hh h then
                  if match t with TId n => match tab n with Some _ => true | None => false end | TArg _ => true | _ => false end
                  then go t (setp true (setl l' s))
                  else pasted (pa2 f t (setl l' s))
                else go t (setl l s)
            | [] =>
                if pl s then
                  match stack (base s) with
                  | [] => R2Err
                  | c :: st => pasted (pa2 f t (setp false (setb (St c st (inp (base s))) s)))
                  end
                else go t (setl l s)
            end
        | [] =>
            match stack (base s) with
            | c :: st => gt2 f ex (setb (St c st (inp (base s))) s)
            | [] =>
                match inp (base s) with
                | [] => R2Tok TEof s
                | t :: r =>
                    let s1 := setb (St (cur (base s)) (stack (base s)) r) s in
                    match t with
                    | TId n => match tab n with
                               | Some m => if ex then try n m s1 else R2Tok t s1
                               | None => R2Tok t s1
                               end
                    | _ => R2Tok t s1
                    end
                end
            end
        end).
  Proof. reflexivity. Qed.
  Lemma pa2_eq f t s : pa2 (S f) t s =
   (
        let with_right r s1 := match pst t r with Some u => R2Tok u s1 | None => R2Err end in
        match gt2 f false (setx false s) with
        | R2Tok r s1 =>
            let s1 := setx true s1 in
            match r with
            | TArg i =>
                match get_macro_arg i (c_args (cur (base s1))) with
                | Some [] => R2Tok t s1
                | Some a => match begin2 None a [] s1 with
                            | Some s2 => match gt2 f false s2 with R2Tok r2 s3 => with_right r2 s3 | e => e end
                            | None => R2Err
                            end
                | None => R2Err
                end
            | _ => with_right r s1
            end
        | e => e
        end).
  Proof. reflexivity. Qed.
  Lemma st2_eq f s : st2 (S f) s =
   (
        match gt2 f false (setx false s) with
        | R2Tok r s1 =>
            let s1 := setx true s1 in
            match r with
            | TArg i => match get_macro_arg i (c_args (cur (base s1))) with
                        | Some a => R2Tok (string_of a) s1
                        | None => R2Err
                        end
            | _ => R2Err
            end
        | e => e
        end).
  Proof. reflexivity. Qed.
  Lemma ma2_eq f s : ma2 (S f) s =
   ( match gt2 f false s with
             | R2Tok t s1 => al2 f [] false t s1
             | R2Err => A2Err
             | R2Fuel => A2Fuel
             end).
  Proof. reflexivity. Qed.
  Lemma al2_eq f args prev_is_comma t s : al2 (S f) args prev_is_comma t s =
   (
        if is_rp t then A2Ok (if prev_is_comma then [] :: args else args) s
        else if is_eof t then A2Err
        else if is_cm t then
          match gt2 f false s with
          | R2Tok t1 s1 => al2 f (if prev_is_comma then [] :: args else args) true t1 s1
          | R2Err => A2Err
          | R2Fuel => A2Fuel
          end
        else match mp2 f 0 t s with
             | P2Ok arg t1 s1 => al2 f (arg :: args) false t1 s1
             | P2Err => A2Err
             | P2Fuel => A2Fuel
             end).
  Proof. reflexivity. Qed.
  Lemma mp2_eq f d t s : mp2 (S f) d t s =
   (
        if ((0 <? d)%Z || negb (is_cm t || is_rp t)) && negb (is_eof t) then
          let d1 := if is_lp t then (d + 1)%Z else d in
          let d2 := if is_rp t then (d1 - 1)%Z else d1 in
          match gt2 f false s with
          | R2Tok t1 s1 =>
              match mp2 f d2 t1 s1 with
              | P2Ok arg t2 s2 => P2Ok (t :: arg) t2 s2
              | e => e
              end
          | R2Err => P2Err
          | R2Fuel => P2Fuel
          end
        else P2Ok [] t s).
  Proof. reflexivity. Qed.

  (** ** Without # and ## the loop is the one of Macro.v *)
  Definition okt (t : mtok) : Prop := is_hh t = false /\ is_hs t = false.
  Definition okc (c : ctx) : Prop := Forall okt (c_lst c) /\ Forall (Forall okt) (c_args c).
  Definition oks (s : state) : Prop := okc (cur s) /\ Forall okc (stack s) /\ Forall okt (inp s).
  Definition bodies_ok : Prop := forall n m, tab n = Some m -> Forall okt (m_toks m).
  Definition lft (s : state) : state2 := S2 s true false.
  Definition l_res (r : res) : res2 := match r with RTok t s => R2Tok t (lft s) | RErr => R2Err | RFuel => R2Fuel end.
  Definition l_ares (r : ares) : ares2 := match r with AOk a s => A2Ok a (lft s) | AErr => A2Err | AFuel => A2Fuel end.
  Definition l_pres (r : pres) : pres2 := match r with POk a t s => P2Ok a t (lft s) | PErr => P2Err | PFuel => P2Fuel end.
  Definition ok_res (r : res) : Prop := match r with RTok t s => okt t /\ oks s | _ => True end.
  Definition ok_ares (r : ares) : Prop := match r with AOk a s => Forall (Forall okt) a /\ oks s | _ => True end.
  Definition ok_pres (r : pres) : Prop := match r with POk a t s => Forall okt a /\ okt t /\ oks s | _ => True end.
  Definition l_att (r : attempted) : attempted2 := match r with ATok t s => A2Tok t (lft s) | AGo s => A2Go (lft s) | AFail => A2Fail | ANoFuel => A2NoFuel end.
  Definition ok_att (r : attempted) : Prop := match r with ATok t s => okt t /\ oks s | AGo s => oks s | _ => True end.

  Lemma begin2_lft i ts a s : begin2 i ts a (lft s) = match begin_macro_expansion i ts a s with Some s' => Some (lft s') | None => None end.
  Proof. unfold begin2, setb, lft. cbn [base xa pl]. destruct (begin_macro_expansion i ts a s); reflexivity. Qed.
  Lemma begin_ok2 i ts a s s' : begin_macro_expansion i ts a s = Some s' -> oks s -> Forall okt ts -> Forall (Forall okt) a -> oks s'.
  Proof.
    unfold begin_macro_expansion. destruct (_ <=? _); [discriminate|]. intros [= <-] (C & K & I) T A. repeat split; cbn; auto.
  Qed.
  Lemma oks_rest s t l : oks s -> c_lst (cur s) = t :: l -> okt t /\ Forall okt l /\ oks (St (Ctx l (c_args (cur s)) (c_ident (cur s))) (stack s) (inp s)).
  Proof. intros ((C & A) & K & I) E. rewrite E in C. inversion C; subst. repeat split; cbn; auto; apply H1. Qed.
  Lemma okt_id n : okt (TId n). Proof. split; reflexivity. Qed.
  Lemma get_arg_ok i : forall a v, Forall (Forall okt) a -> get_macro_arg i a = Some v -> Forall okt v.
  Proof. induction i as [|i IH]; intros [|b a] v F E; inversion F; subst; try discriminate; cbn in E. - congruence. - eauto. Qed.

  Lemma attempt_lift g g2 ga ga2 n m s : (forall s, oks s -> g2 (lft s) = l_res (g s) /\ ok_res (g s)) ->
    (forall s, oks s -> ga2 (lft s) = l_ares (ga s) /\ ok_ares (ga s)) -> oks s -> Forall okt (m_toks m) ->
    attempt2 g2 ga2 n m (lft s) = l_att (attempt_macro_expansion g ga n m s) /\ ok_att (attempt_macro_expansion g ga n m s).
  Proof.
    intros G A O M. unfold attempt2, attempt_macro_expansion. cbn [base lft].
    destruct (macro_is_already_expanding n s); [split; [reflexivity|split; [apply okt_id|assumption]]|].
    destruct (m_argc m) as [argc|].
    - destruct (G s O) as [E R]. rewrite E. destruct (g s) as [t s1| |]; cbn [l_res]; [|now split|now split]. destruct R as [Ot O1].
      destruct (is_lp t).
      + destruct (A s1 O1) as [E2 R2]. rewrite E2. destruct (ga s1) as [vs s2| |]; cbn [l_ares]; [|now split|now split]. destruct R2 as [Ov O2].
        destruct (Nat.eqb (length vs) argc); [|now split]. rewrite begin2_lft.
        destruct (begin_macro_expansion (Some n) (m_toks m) vs s2) eqn:B; [|now split]. split; [reflexivity|]. eapply begin_ok2; eauto.
      + rewrite begin2_lft. destruct (begin_macro_expansion None [t] [] s1) eqn:B; [|now split]. split; [reflexivity|]. split; [apply okt_id|]. eapply begin_ok2; eauto.
    - rewrite begin2_lft. destruct (begin_macro_expansion (Some n) (m_toks m) [] s) eqn:B; [|now split]. split; [reflexivity|]. eapply begin_ok2; eauto.
  Qed.

  Definition cons_at f :=
    (forall ex s, oks s -> gt2 f ex (lft s) = l_res (get_tok tab f ex s) /\ ok_res (get_tok tab f ex s)) /\
    (forall s, oks s -> ma2 f (lft s) = l_ares (macro_args tab f s) /\ ok_ares (macro_args tab f s)) /\
    (forall a p t s, oks s -> okt t -> Forall (Forall okt) a -> al2 f a p t (lft s) = l_ares (args_loop tab f a p t s) /\ ok_ares (args_loop tab f a p t s)) /\
    (forall d t s, oks s -> okt t -> mp2 f d t (lft s) = l_pres (macro_parse_argument tab f d t s) /\ ok_pres (macro_parse_argument tab f d t s)).
  Lemma conserv (BO : bodies_ok) f : cons_at f.
  Proof.
    induction f as [|f (G & A & L & P)]; [repeat split|].
    assert (TRY : forall ex n m s1, oks s1 -> tab n = Some m ->
       match attempt2 (gt2 f ex) (ma2 f) n m (lft s1) with A2Tok t s2 => R2Tok t s2 | A2Go s2 => gt2 f ex s2 | A2Fail => R2Err | A2NoFuel => R2Fuel end =
       l_res match attempt_macro_expansion (get_tok tab f ex) (macro_args tab f) n m s1 with ATok t s2 => RTok t s2 | AGo s2 => get_tok tab f ex s2 | AFail => RErr | ANoFuel => RFuel end /\
       ok_res match attempt_macro_expansion (get_tok tab f ex) (macro_args tab f) n m s1 with ATok t s2 => RTok t s2 | AGo s2 => get_tok tab f ex s2 | AFail => RErr | ANoFuel => RFuel end).
    { intros ex n m s1 O E. destruct (attempt_lift (get_tok tab f ex) (gt2 f ex) (macro_args tab f) (ma2 f) n m s1 (G ex) A O (BO _ _ E)) as [E1 E2].
      rewrite E1. destruct (attempt_macro_expansion _ _ n m s1); cbn [l_att]; auto; now split. }
    assert (GO : forall ex s, oks s -> gt2 (S f) ex (lft s) = l_res (get_tok tab (S f) ex s) /\ ok_res (get_tok tab (S f) ex s)).
    { intros ex s O. rewrite gt2_eq, gt_eq. cbv zeta. cbn [base xa pl lft].
      destruct (c_lst (cur s)) as [|t l] eqn:EL.
      - destruct O as (C & K & I). destruct (stack s) as [|c st] eqn:ES.
        + destruct (inp s) as [|t r] eqn:EI; [split; [reflexivity|]; split; [split; reflexivity|]; unfold oks; rewrite ES, EI; exact (conj C (conj K I))|].
          pose proof (Forall_inv I) as I1. pose proof (Forall_inv_tail I) as I2. assert (O1 : oks (St (cur s) [] r)) by (repeat split; auto; apply C).
          destruct t as [n| | |]; try (split; [reflexivity|split; assumption]).
          destruct (tab n) eqn:ET; [|split; [reflexivity|split; assumption]]. destruct ex; [|split; [reflexivity|split; assumption]].
          now apply TRY.
        + pose proof (Forall_inv K) as K1. pose proof (Forall_inv_tail K) as K2. apply G. repeat split; auto; apply K1.
      - destruct (oks_rest s t l O EL) as (Ot & Ol & O1).
        match goal with |- ?lhs = _ /\ _ => assert (EL2 : lhs = match t with
          | TId n => match tab n with Some m => match attempt2 (gt2 f ex) (ma2 f) n m (setl l (lft s)) with A2Tok t0 s2 => R2Tok t0 s2 | A2Go s2 => gt2 f ex s2 | A2Fail => R2Err | A2NoFuel => R2Fuel end | None => R2Tok t (setl l (lft s)) end
          | TArg i => match get_macro_arg i (c_args (cur s)) with
                | Some a => match begin2 None a [] (setl l (lft s)) with Some s2 => gt2 f ex s2 | None => R2Err end
                | None => R2Err end
          | TT c _ => if Z.eqb c 35 then st2 f (setl l (lft s)) else R2Tok t (setl l (lft s))
          | TEof => R2Tok t (setl l (lft s)) end) end.
        { destruct l as [|h l']; [reflexivity|]. destruct (Forall_inv Ol) as [H1 _]. rewrite H1. reflexivity. }
        rewrite EL2. clear EL2. change (setl l (lft s)) with (lft (St (Ctx l (c_args (cur s)) (c_ident (cur s))) (stack s) (inp s))).
        destruct t as [n|i| |c v].
        + destruct (tab n) eqn:ET; [now apply TRY|split; [reflexivity|split; assumption]].
        + destruct (get_macro_arg i (c_args (cur s))) as [a|] eqn:EA; [|now split]. rewrite begin2_lft.
          destruct (begin_macro_expansion _ _ _ _) eqn:B; [|now split]. apply G. eapply begin_ok2; eauto. eapply get_arg_ok; [|exact EA]. apply O.
        + split; [reflexivity|split; assumption].
        + destruct Ot as [O2 O3]. unfold is_hs, is_tt in O3. rewrite Z.eqb_sym in O3. rewrite O3. split; [reflexivity|split; [|assumption]].
          split; [exact O2|]. unfold is_hs, is_tt. now rewrite Z.eqb_sym. }
    split; [exact GO|]. split; [|split].
    - intros s O. rewrite ma2_eq, ma_eq. destruct (G false s O) as [E R]. rewrite E. destruct (get_tok tab f false s) as [t s1| |]; cbn [l_res]; [|now split|now split].
      apply L; try apply R. constructor.
    - intros a p t s O Ot Oa. rewrite al2_eq, al_eq. destruct (is_rp t).
      { split; [reflexivity|]. split; [|assumption]. destruct p; auto. }
      destruct (is_eof t); [now split|]. destruct (is_cm t).
      + destruct (G false s O) as [E R]. rewrite E. destruct (get_tok tab f false s) as [t1 s1| |]; cbn [l_res]; [|now split|now split].
        apply L; try apply R. destruct p; auto.
      + destruct (P 0%Z t s O Ot) as [E R]. rewrite E. destruct (macro_parse_argument tab f 0 t s) as [b t1 s1| |]; cbn [l_pres]; [|now split|now split].
        destruct R as (R1 & R2 & R3). apply L; auto.
    - intros d t s O Ot. rewrite mp2_eq, mp_eq. cbv zeta. destruct (((0 <? d)%Z || negb (is_cm t || is_rp t)) && negb (is_eof t)).
      + destruct (G false s O) as [E R]. rewrite E. destruct (get_tok tab f false s) as [t1 s1| |]; cbn [l_res]; [|now split|now split].
        destruct R as [R1 R2]. match goal with |- match mp2 f ?x t1 _ with _ => _ end = _ /\ _ => destruct (P x t1 s1 R2 R1) as [E2 R3] end.
        rewrite E2. destruct (macro_parse_argument tab f _ t1 s1); cbn [l_pres]; [|now split|now split].
        split; [reflexivity|]. destruct R3 as (Q1 & Q2 & Q3). repeat split; auto; try apply Q2; try apply Q3.
      + split; [reflexivity|]. repeat split; auto; try apply Ot; apply O.
  Qed.

  (** ** Eventual results *)
  Definition evt2 ex s o := exists k, forall f, k <= f -> gt2 f ex s = o.
  Definition evp t s o := exists k, forall f, k <= f -> pa2 f t s = o.
  Definition runs2 ex s s' := forall o, evt2 ex s' o -> evt2 ex s o.
  Inductive emits2 (ex : bool) : state2 -> list mtok -> state2 -> Prop :=
  | em2_nil s s' : runs2 ex s s' -> emits2 ex s [] s'
  | em2_cons s t s1 ts s' : evt2 ex s (R2Tok t s1) -> emits2 ex s1 ts s' -> emits2 ex s (t :: ts) s'.
  Lemma runs2_refl ex s : runs2 ex s s. Proof. intros o H. exact H. Qed.
  Lemma emits2_runs ex s s1 ts s' : runs2 ex s s1 -> emits2 ex s1 ts s' -> emits2 ex s ts s'.
  Proof. intros R E. destruct E as [s1 s' R2|s1 t s2 ts s' E1 E2]; [constructor; intros o H; apply R, R2, H|econstructor; [apply R, E1|exact E2]]. Qed.
  Lemma emits2_app ex s ts1 s1 ts2 s2 : emits2 ex s ts1 s1 -> emits2 ex s1 ts2 s2 -> emits2 ex s (ts1 ++ ts2) s2.
  Proof. induction 1 as [s s' R|s t s3 ts s' E1 E2 IH]; intros E; [exact (emits2_runs _ _ _ _ _ R E)|]. cbn [app]. econstructor; [exact E1|exact (IH E)]. Qed.
  Lemma evt2_S ex s o : (exists k, forall f, k <= f -> gt2 (S f) ex s = o) -> evt2 ex s o.
  Proof. intros [k K]. exists (S k). intros [|f] L; [lia|]. apply K. lia. Qed.
  Lemma runs2_S ex s s' : (forall f, gt2 (S f) ex s = gt2 f ex s') -> runs2 ex s s'.
  Proof. intros E o [k K]. apply evt2_S. exists k. intros f L. rewrite E. now apply K. Qed.

  (** ** The state, spelled out *)
  Definition M l a i st r x p := S2 (St (Ctx l a i) st r) x p.
  Definition plain1 (t : mtok) : Prop := match t with TId n => tab n = None | TT c _ => c <> 35%Z /\ c <> 471%Z | _ => False end.
  Definition hd_ok (l : list mtok) : Prop := match l with h :: _ => is_hh h = false | [] => True end.
  Lemma plain1_hh t : plain1 t -> is_hh t = false.
  Proof. destruct t; try easy. unfold is_hh, is_tt, plain1. intros [_ H]. apply Z.eqb_neq. congruence. Qed.
  Lemma plain_hd ts : Forall plain1 ts -> hd_ok ts.
  Proof. destruct 1; [exact Logic.I|]. now apply plain1_hh. Qed.
  Lemma hd_ok_app ts l : Forall plain1 ts -> hd_ok l -> hd_ok (ts ++ l).
  Proof. destruct 1; [exact (fun h => h)|]. intros _. now apply plain1_hh. Qed.

  (* an ordinary token, when it is not pasted *)
  Lemma g_plain f ex t l a i st r x : plain1 t -> hd_ok l -> gt2 (S f) ex (M (t :: l) a i st r x false) = R2Tok t (M l a i st r x false).
  Proof.
    intros P Hh. rewrite gt2_eq. cbv zeta. unfold M. cbn [base cur c_lst stack pl].
    assert (GO : forall s1, match t with
       | TId n => match tab n with Some m => match attempt2 (gt2 f ex) (ma2 f) n m s1 with A2Tok t0 s2 => R2Tok t0 s2 | A2Go s2 => gt2 f ex s2 | A2Fail => R2Err | A2NoFuel => R2Fuel end | None => R2Tok t s1 end
       | TArg i0 => if xa s1 then match get_macro_arg i0 (c_args (cur (base s1))) with Some a0 => match begin2 None a0 [] s1 with Some s2 => gt2 f ex s2 | None => R2Err end | None => R2Err end else R2Tok t s1
       | TT c _ => if Z.eqb c 35 then st2 f s1 else R2Tok t s1
       | TEof => R2Tok t s1 end = R2Tok t s1).
    { intros s1. destruct t; try easy; unfold plain1 in P. - now rewrite P. - destruct P as [P _]. apply Z.eqb_neq in P. now rewrite P. }
    destruct l as [|h l']; [|unfold hd_ok in Hh; rewrite Hh]; apply GO.
  Qed.
  (* ... with pl set, when it is not the last one *)
  Lemma g_plain' f ex t h l a i st r x p : plain1 t -> is_hh h = false -> gt2 (S f) ex (M (t :: h :: l) a i st r x p) = R2Tok t (M (h :: l) a i st r x p).
  Proof.
    intros P Hh. rewrite gt2_eq. cbv zeta. unfold M. cbn [base cur c_lst stack pl]. rewrite Hh.
    destruct t; try easy; unfold plain1 in P. - now rewrite P. - destruct P as [P _]. apply Z.eqb_neq in P. now rewrite P.
  Qed.
  (* the result of pasting: an ordinary token *)
  Definition done t s1 : res2 := R2Tok t s1.
  Lemma g_paste f ex t l a i st r x p : plain1 t -> forall u s', pa2 f t (M l a i st r x p) = R2Tok u s' -> plain1 u ->
    gt2 (S f) ex (M (t :: HH :: l) a i st r x p) = R2Tok u s'.
  Proof.
    intros P u s' E Pu. rewrite gt2_eq. cbv zeta. unfold M. cbn [base cur c_lst stack pl]. change (is_hh HH) with true. cbv iota.
    change (setl l {| base := {| cur := {| c_lst := t :: HH :: l; c_args := a; c_ident := i |}; stack := st; inp := r |}; xa := x; pl := p |}) with (M l a i st r x p).
    assert (N : match t with TId n => match tab n with Some _ => true | None => false end | TArg _ => true | _ => false end = false).
    { destruct t; try easy. unfold plain1 in P. now rewrite P. }
    rewrite N, E. destruct u; try easy; unfold plain1 in Pu. - now rewrite Pu. - destruct Pu as [Pu _]. apply Z.eqb_neq in Pu. now rewrite Pu.
  Qed.
  Lemma g_last f ex t a i c st r x : forall u s', pa2 f t (S2 (St c st r) x false) = R2Tok u s' -> plain1 u ->
    gt2 (S f) ex (M [t] a i (c :: st) r x true) = R2Tok u s'.
  Proof.
    intros u s' E Pu. rewrite gt2_eq. cbv zeta. unfold M. cbn [base cur c_lst stack pl inp].
    match goal with |- match pa2 f t ?s with _ => _ end = _ => change s with (S2 (St c st r) x false) end.
    rewrite E. destruct u; try easy; unfold plain1 in Pu. - now rewrite Pu. - destruct Pu as [Pu _]. apply Z.eqb_neq in Pu. now rewrite Pu.
  Qed.
  Lemma g_arg_raw f ex j l a i st r : hd_ok l -> gt2 (S f) ex (M (TArg j :: l) a i st r false false) = R2Tok (TArg j) (M l a i st r false false).
  Proof. intros Hh. rewrite gt2_eq. cbv zeta. unfold M. cbn [base cur c_lst stack pl]. destruct l as [|h l']; [reflexivity|]. unfold hd_ok in Hh. rewrite Hh. reflexivity. Qed.
  Lemma g_arg_raw_hh f ex j l a i st r p : gt2 (S f) ex (M (TArg j :: HH :: l) a i st r false p) = R2Tok (TArg j) (M l a i st r false true).
  Proof. reflexivity. Qed.
  Lemma begin2_ok i ts a c st r x p : length st < 59 -> begin2 i ts a (S2 (St c st r) x p) = Some (M ts a i (c :: st) r x p).
  Proof. intros L. unfold begin2. cbn [base]. rewrite begin_ok by exact L. reflexivity. Qed.
  Lemma r_arg ex j v l a i st r : hd_ok l -> get_macro_arg j a = Some v -> length st < 59 ->
    runs2 ex (M (TArg j :: l) a i st r true false) (M v [] None (Ctx l a i :: st) r true false).
  Proof.
    intros Hh E L. apply runs2_S. intros f.
    assert (B : begin2 None v [] (M l a i st r true false) = Some (M v [] None (Ctx l a i :: st) r true false)) by (apply begin2_ok; exact L).
    transitivity (match get_macro_arg j a with Some v => match begin2 None v [] (M l a i st r true false) with Some s2 => gt2 f ex s2 | None => R2Err end | None => R2Err end).
    { rewrite gt2_eq. cbv zeta. unfold M. cbn [base cur c_lst]. destruct l as [|h l']; [reflexivity|]. unfold hd_ok in Hh. rewrite Hh. reflexivity. }
    rewrite E, B. reflexivity.
  Qed.
  Lemma r_arg_hh ex j v l a i st r p : get_macro_arg j a = Some v -> length st < 59 ->
    runs2 ex (M (TArg j :: HH :: l) a i st r true p) (M v [] None (Ctx l a i :: st) r true true).
  Proof.
    intros E L. apply runs2_S. intros f.
    assert (B : begin2 None v [] (M l a i st r true true) = Some (M v [] None (Ctx l a i :: st) r true true)) by (apply begin2_ok; exact L).
    transitivity (match get_macro_arg j a with Some v => match begin2 None v [] (M l a i st r true true) with Some s2 => gt2 f ex s2 | None => R2Err end | None => R2Err end).
    { reflexivity. }
    rewrite E, B. reflexivity.
  Qed.
  Lemma r_pop ex a i c st r x p : runs2 ex (M [] a i (c :: st) r x p) (S2 (St c st r) x p).
  Proof. apply runs2_S. intros f. reflexivity. Qed.
  (* ordinary tokens; then the list goes on *)
  Lemma e_plain ts : forall ex l a i st r, Forall plain1 ts -> hd_ok l -> emits2 ex (M (ts ++ l) a i st r true false) ts (M l a i st r true false).
  Proof.
    induction ts as [|t ts IH]; intros ex l a i st r P Hh; [constructor; apply runs2_refl|].
    econstructor; [|exact (IH ex l a i st r (Forall_inv_tail P) Hh)]. apply evt2_S. exists 0. intros f _. cbn [app]. apply g_plain; [exact (Forall_inv P)|].
    apply hd_ok_app; [exact (Forall_inv_tail P)|exact Hh].
  Qed.
  Lemma e_frame ts ex c st r i a : Forall plain1 ts -> emits2 ex (M ts a i (c :: st) r true false) ts (S2 (St c st r) true false).
  Proof.
    intros P. assert (E : emits2 ex (M (ts ++ []) a i (c :: st) r true false) (ts ++ []) (S2 (St c st r) true false)).
    { eapply emits2_app; [apply e_plain; [exact P|exact Logic.I]|]. constructor. apply r_pop. }
    now rewrite !app_nil_r in E.
  Qed.

  (** ** A chain of ## *)
  (* the token an operand is in the stored body, and what it stands for *)
  Definition opok (a : list (list mtok)) (o : mtok * list mtok) : Prop :=
    Forall plain1 (snd o) /\ (plain1 (fst o) /\ snd o = [fst o] \/ exists j, fst o = TArg j /\ get_macro_arg j a = Some (snd o)).
  Fixpoint ctext (o : mtok * list mtok) (os : list (mtok * list mtok)) (l : list mtok) : list mtok :=
    fst o :: match os with [] => l | o2 :: os' => HH :: ctext o2 os' l end.
  Notation gl o os := (glue pst (snd o) (map snd os)).
  Fixpoint made_ok (o : mtok * list mtok) (os : list (mtok * list mtok)) : Prop :=
    (forall g, gl o os = Some g -> Forall plain1 g) /\ match os with [] => True | o2 :: os' => snd o <> [] /\ made_ok o2 os' end.

  Lemma glue2_nil v : glue2 pst v [] = Some v.
  Proof. induction v as [|x v IH]; [reflexivity|]. destruct v as [|y v]; [reflexivity|]. change (glue2 pst (x :: y :: v) []) with (match glue2 pst (y :: v) [] with Some r => Some (x :: r) | None => None end). now rewrite IH. Qed.

  Lemma glue2_cons y v g : glue2 pst (y :: v) g <> Some [].
  Proof.
    destruct v as [|y2 v].
    - cbn [glue2]. destruct g as [|w g]; [discriminate|]. destruct (pst y w); discriminate.
    - change (glue2 pst (y :: y2 :: v) g) with (match glue2 pst (y2 :: v) g with Some r => Some (y :: r) | None => None end). destruct (glue2 pst (y2 :: v) g); discriminate.
  Qed.
  (* what pasting x with the rest of a chain does *)
  Definition pasted_with (x : mtok) (g : list mtok) (s s' : state2) : Prop :=
    match g with
    | [] => evp x s (R2Tok x s')
    | y :: g' => forall z, pst x y = Some z -> exists s1, evp x s (R2Tok z s1) /\ xa s1 = true /\ forall ex, emits2 ex s1 g' s'
    end.

  (* a frame holding the left operand *)
  Lemma frame_glue g l a i st r l0 : (forall x x', pasted_with x g (M l a i st r x' false) (M l0 a i st r true false)) ->
    forall v ex res, v <> [] -> Forall plain1 v -> glue2 pst v g = Some res -> Forall plain1 res ->
    emits2 ex (M v [] None (Ctx l a i :: st) r true true) res (M l0 a i st r true false).
  Proof.
    intros R v. induction v as [|x v IH]; intros ex res N P G Pr; [easy|]. destruct v as [|y v].
    - specialize (R x true). destruct g as [|y g]; cbn [glue2] in G.
      + injection G as <-. cbn [pasted_with] in R. econstructor; [|constructor; apply runs2_refl]. destruct R as [k K]. apply evt2_S. exists k. intros f L.
        apply g_last; [exact (K f L)|exact (Forall_inv P)].
      + destruct (pst x y) as [z|] eqn:E; [|discriminate]. injection G as <-. cbn [pasted_with] in R. destruct (R z E) as (s1 & [k K] & _ & Em).
        econstructor; [|apply Em]. apply evt2_S. exists k. intros f L. apply g_last; [exact (K f L)|exact (Forall_inv Pr)].
    - change (glue2 pst (x :: y :: v) g) with (match glue2 pst (y :: v) g with Some r => Some (x :: r) | None => None end) in G.
      destruct (glue2 pst (y :: v) g) as [res'|]; [|discriminate]. injection G as <-.
      econstructor; [|apply IH; [discriminate|exact (Forall_inv_tail P)|reflexivity|exact (Forall_inv_tail Pr)]].
      apply evt2_S. exists 0. intros f _. apply g_plain'; [exact (Forall_inv P)|]. apply plain1_hh. exact (Forall_inv (Forall_inv_tail P)).
  Qed.

  Lemma with_right f x s r s1 z : gt2 f false (setx false s) = R2Tok r s1 -> (forall j, r <> TArg j) -> pst x r = Some z -> pa2 (S f) x s = R2Tok z (setx true s1).
  Proof. intros E N P. rewrite pa2_eq. cbv zeta. rewrite E. destruct r; try (now rewrite P). now destruct (N i). Qed.
  Lemma plain_noarg t j : plain1 t -> t <> TArg j. Proof. intros P ->. exact P. Qed.
  Lemma setx_id s : xa s = true -> setx true s = s. Proof. destruct s. cbn. now intros ->. Qed.

  Lemma chain_right os : forall o a i st r l, Forall (opok a) (o :: os) -> hd_ok l -> length st < 59 -> made_ok o os ->
    forall g, gl o os = Some g -> forall x x', pasted_with x g (M (ctext o os l) a i st r x' false) (M l a i st r true false).
  Proof.
    induction os as [|o2 os IH]; intros o a i st r l F Hh L MO g G x x'; pose proof (Forall_inv F) as [Pv Ho].
    - cbn [map glue] in G. injection G as <-. cbn [ctext].
      destruct Ho as [[Pt Ev]|(j & Ej & Ea)].
      + rewrite Ev. cbn [pasted_with]. intros z Z. exists (M l a i st r true false). split; [|split; [reflexivity|intros ex; constructor; apply runs2_refl]].
        exists 2. intros [|[|f]] Lf; [lia|lia|].
        apply (with_right (S f) x _ (fst o) (M l a i st r false false)); [|intros j; now apply plain_noarg|exact Z].
        change (setx false (M (fst o :: l) a i st r x' false)) with (M (fst o :: l) a i st r false false). now apply g_plain.
      + assert (E : forall f, gt2 (S f) false (setx false (M (fst o :: l) a i st r x' false)) = R2Tok (TArg j) (M l a i st r false false)).
        { intros f. rewrite Ej. change (setx false (M (TArg j :: l) a i st r x' false)) with (M (TArg j :: l) a i st r false false). now apply g_arg_raw. }
        destruct (snd o) as [|y v] eqn:Ev; cbn [pasted_with].
        * exists 2. intros [|[|f]] Lf; [lia|lia|]. rewrite pa2_eq. cbv zeta. rewrite E. unfold setx, M. cbn [base cur c_args]. now rewrite Ea.
        * intros z Z. exists (M v [] None (Ctx l a i :: st) r true false). split; [|split; [reflexivity|]].
          { exists 2. intros [|[|f]] Lf; [lia|lia|]. rewrite pa2_eq. cbv zeta. rewrite E.
            change (setx true (M l a i st r false false)) with (M l a i st r true false). cbn [M base cur c_args]. rewrite Ea.
            assert (B : begin2 None (y :: v) [] (M l a i st r true false) = Some (M (y :: v) [] None (Ctx l a i :: st) r true false)) by (apply begin2_ok; exact L).
            rewrite B. rewrite g_plain; [now rewrite Z|exact (Forall_inv Pv)|apply plain_hd; exact (Forall_inv_tail Pv)]. }
          { intros ex. apply e_frame. exact (Forall_inv_tail Pv). }
    - destruct MO as (Pg & Nv & MO). specialize (Pg _ G). cbn [map glue] in G.
      destruct (glue pst (snd o2) (map snd os)) as [g2|] eqn:G2; [|discriminate].
      pose proof (IH o2 a i st r l (Forall_inv_tail F) Hh L MO g2 G2) as R. cbn [ctext].
      set (l2 := ctext o2 os l) in *.
      destruct Ho as [[Pt Ev]|(j & Ej & Ea)].
      + (* a token *)
        rewrite Ev in G. cbn [glue2] in G.
        assert (K : forall z' , g2 = [] /\ g = [fst o] -> pst x (fst o) = Some z' -> evp x (M (fst o :: HH :: l2) a i st r x' false) (R2Tok z' (M l a i st r true false))).
        { intros z' [-> _] Z. specialize (R (fst o) false). cbn [pasted_with] in R. destruct R as [k K]. exists (S (S k)). intros [|[|f]] Lf; [lia|lia|].
          apply (with_right (S f) x _ (fst o) (M l a i st r true false)); [|intros j; now apply plain_noarg|exact Z].
          change (setx false (M (fst o :: HH :: l2) a i st r x' false)) with (M (fst o :: HH :: l2) a i st r false false).
          apply g_paste; [exact Pt|apply K; lia|exact Pt]. }
        destruct g2 as [|y g2].
        * injection G as <-. cbn [pasted_with]. intros z Z. exists (M l a i st r true false). split; [|split; [reflexivity|intros ex; constructor; apply runs2_refl]]. apply K; auto.
        * destruct (pst (fst o) y) as [w|] eqn:W; [|discriminate]. injection G as <-. cbn [pasted_with]. intros z Z.
          specialize (R (fst o) false). cbn [pasted_with] in R. destruct (R w W) as (s1 & [k Kk] & X1 & Em).
          exists s1. split; [|split; [exact X1|exact Em]]. exists (S (S k)). intros [|[|f]] Lf; [lia|lia|].
          rewrite <- (setx_id s1 X1). apply (with_right (S f) x _ w s1); [|intros j; apply plain_noarg; exact (Forall_inv Pg)|exact Z].
          change (setx false (M (fst o :: HH :: l2) a i st r x' false)) with (M (fst o :: HH :: l2) a i st r false false).
          apply g_paste; [exact Pt|apply Kk; lia|exact (Forall_inv Pg)].
      + (* a parameter *)
        rewrite Ej. destruct (snd o) as [|y v] eqn:Ev; [now destruct Nv|].
        assert (Em0 : forall ex, emits2 ex (M (y :: v) [] None (Ctx l2 a i :: st) r true true) g (M l a i st r true false)).
        { intros ex. apply (frame_glue g2 l2 a i st r l R); [discriminate|exact Pv|exact G|exact Pg]. }
        destruct g as [|y' g']; [now destruct (glue2_cons _ _ _ G)|].
        cbn [pasted_with]. intros z Z. pose proof (Em0 false) as Ef. inversion Ef as [|s0 t0 s1 ts0 s0' Ev1 Em1]; subst.
        (* the state after the first token does not depend on ex *)
        assert (HX : exists s2, evt2 false (M (y :: v) [] None (Ctx l2 a i :: st) r true true) (R2Tok y' s2) /\ xa s2 = true /\ forall ex, emits2 ex s2 g' (M l a i st r true false)).
        { clear Ef Ev1 Em1 s1 Em0. destruct v as [|y2 v].
          - specialize (R y true). cbn [glue2] in G. destruct g2 as [|w g2].
            + injection G as <- <-. cbn [pasted_with] in R. exists (M l a i st r true false). split; [|split; [reflexivity|intros ex; constructor; apply runs2_refl]].
              destruct R as [k Kk]. apply evt2_S. exists k. intros f Lf. apply g_last; [exact (Kk f Lf)|exact (Forall_inv Pg)].
            + destruct (pst y w) as [u|] eqn:U; [|discriminate]. injection G as <- <-. cbn [pasted_with] in R. destruct (R u U) as (s1 & [k Kk] & X1 & Em).
              exists s1. split; [|split; [exact X1|exact Em]]. apply evt2_S. exists k. intros f Lf. apply g_last; [exact (Kk f Lf)|exact (Forall_inv Pg)].
          - change (glue2 pst (y :: y2 :: v) g2) with (match glue2 pst (y2 :: v) g2 with Some r => Some (y :: r) | None => None end) in G.
            destruct (glue2 pst (y2 :: v) g2) as [res'|] eqn:G3; [|discriminate]. injection G as <- <-.
            exists (M (y2 :: v) [] None (Ctx l2 a i :: st) r true true). split; [|split; [reflexivity|]].
            + apply evt2_S. exists 0. intros f _. apply g_plain'; [exact (Forall_inv Pv)|]. apply plain1_hh. exact (Forall_inv (Forall_inv_tail Pv)).
            + intros ex. apply (frame_glue g2 l2 a i st r l R); [discriminate|exact (Forall_inv_tail Pv)|exact G3|exact (Forall_inv_tail Pg)]. }
        destruct HX as (s2 & [k Kk] & X2 & Em2). exists s2. split; [|split; [exact X2|exact Em2]].
        exists (S (S k)). intros [|[|f]] Lf; [lia|lia|]. rewrite pa2_eq. cbv zeta.
        change (setx false (M (TArg j :: HH :: l2) a i st r x' false)) with (M (TArg j :: HH :: l2) a i st r false false). rewrite g_arg_raw_hh.
        change (setx true (M l2 a i st r false true)) with (M l2 a i st r true true). cbn [M base cur c_args]. rewrite Ea.
        assert (B : begin2 None (y :: v) [] (M l2 a i st r true true) = Some (M (y :: v) [] None (Ctx l2 a i :: st) r true true)) by (apply begin2_ok; exact L).
        rewrite B. rewrite (Kk (S f)) by lia. now rewrite Z.
  Qed.
  (** A chain of ## gives what C says, and the reader goes on after it. *)
  Theorem chain os : forall o a i st r l ex, Forall (opok a) (o :: os) -> hd_ok l -> length st < 59 -> made_ok o os ->
    forall g, gl o os = Some g -> emits2 ex (M (ctext o os l) a i st r true false) g (M l a i st r true false).
  Proof.
    intros o a i st r l ex F Hh L MO g G. pose proof (Forall_inv F) as [Pv Ho]. destruct os as [|o2 os].
    - cbn [map glue] in G. injection G as <-. cbn [ctext]. destruct Ho as [[Pt Ev]|(j & Ej & Ea)].
      + rewrite Ev. apply (e_plain [fst o]); [now constructor|exact Hh].
      + rewrite Ej. eapply emits2_runs; [apply (r_arg ex j (snd o)); [exact Hh|exact Ea|exact L]|]. now apply e_frame.
    - destruct MO as (Pg & Nv & MO). specialize (Pg _ G). cbn [map glue] in G.
      destruct (glue pst (snd o2) (map snd os)) as [g2|] eqn:G2; [|discriminate].
      pose proof (chain_right os o2 a i st r l (Forall_inv_tail F) Hh L MO g2 G2) as R. cbn [ctext]. set (l2 := ctext o2 os l) in *.
      destruct Ho as [[Pt Ev]|(j & Ej & Ea)].
      + rewrite Ev in G. cbn [glue2] in G. specialize (R (fst o) true). destruct g2 as [|y g2].
        * injection G as <-. cbn [pasted_with] in R. econstructor; [|constructor; apply runs2_refl]. destruct R as [k K]. apply evt2_S. exists k. intros f Lf.
          apply g_paste; [exact Pt|exact (K f Lf)|exact Pt].
        * destruct (pst (fst o) y) as [w|] eqn:W; [|discriminate]. injection G as <-. cbn [pasted_with] in R. destruct (R w W) as (s1 & [k K] & _ & Em).
          econstructor; [|apply Em]. apply evt2_S. exists k. intros f Lf. apply g_paste; [exact Pt|exact (K f Lf)|exact (Forall_inv Pg)].
      + rewrite Ej. eapply emits2_runs; [apply (r_arg_hh ex j (snd o)); [exact Ea|exact L]|].
        apply (frame_glue g2 l2 a i st r l R); [exact Nv|exact Pv|exact G|exact Pg].
  Qed.
  (** # and a parameter *)
  Theorem hash j n a i st r l ex : get_macro_arg j a = Some [TId n] -> hd_ok l ->
    emits2 ex (M (HS :: TArg j :: l) a i st r true false) [TT STRING_TOK (Z.of_nat n)] (M l a i st r true false).
  Proof.
    intros Ea Hh. econstructor; [|constructor; apply runs2_refl]. exists 3. intros [|[|[|f]]] Lf; try lia. rewrite gt2_eq. cbv zeta. unfold M. cbn [base cur c_lst stack pl is_hh is_tt HS].
    change (Z.eqb 35 35) with true. cbv iota. rewrite st2_eq.
    match goal with |- context [gt2 (S f) false ?s] => change s with (M (TArg j :: l) a i st r false false) end. rewrite g_arg_raw by exact Hh.
    cbv zeta. unfold setx, M. cbn [base cur c_args]. rewrite Ea. reflexivity.
  Qed.
End Table.
