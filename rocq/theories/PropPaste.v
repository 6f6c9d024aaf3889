(** * C11: # and ## *)
From Coq Require Import ZArith List Lia Bool Arith.
From Verif Require Import Macro MacroProof MacroProof2 PropMacro Paste PasteProof.
From Verif Require Base Numerals Store StoreProof Literals PropNumbers ShArith ShFacts PasteStore.
Import ListNotations.
Local Notation length := List.length.

(** ** Without # and ##, the complete loop is the one C10 and C12 are about *)
Theorem c11_conservative defs pst ns ts : (forall n d, defs n = Some d -> Forall okt (d_body d)) -> Forall okt ts ->
  forall n fuel, all_toks2 (table_of defs) pst ns n (file2 ts) fuel = all_toks (table_of defs) n (file_state ts) fuel.
Proof.
  intros D T n fuel.
  assert (BO : bodies_ok (table_of defs)).
  { intros m mc E. unfold table_of in E. destruct (defs m) as [d|] eqn:Ed; [|discriminate]. injection E as <-. specialize (D m d Ed).
    assert (X : forall qs, Forall okt (read_macro_tokens qs (d_body d))).
    { intros qs. unfold read_macro_tokens. induction D as [|t l Ht _ IH]; cbn [map]; constructor; auto. destruct t; auto. cbn [lookup_macro_token].
      destruct (lookup_ix qs n0 0); split; reflexivity. }
    unfold handle_define. destruct (d_params d); cbn [m_toks]; apply X. }
  assert (O : oks (file_state ts)) by (repeat split; cbn; auto).
  change (file2 ts) with (lft (file_state ts)). revert O. generalize (file_state ts). clear T ts.
  induction n as [|n IH]; intros s O; [reflexivity|]. cbn [all_toks all_toks2]. destruct (conserv (table_of defs) pst ns BO fuel) as (G & _).
  destruct (G true s O) as [E R]. rewrite E. destruct (get_tok (table_of defs) fuel true s) as [t s1| |]; cbn [l_res]; try reflexivity.
  destruct (is_eof t); [reflexivity|]. rewrite IH; [reflexivity|]. apply R.
Qed.

Section File.
  Variable defs : name -> option mdef.
  Variable pst : mtok -> mtok -> option mtok.
  Variable ns : Z.
  Notation tab := (table_of defs).
  Definition ordinary (t : mtok) : Prop := match t with TId n => ~ is_macro defs n | TT c _ => c <> 35%Z /\ c <> 471%Z | _ => False end.
  Lemma ord_plain t : ordinary t -> plain1 tab t.
  Proof. destruct t; cbn; try easy. unfold is_macro, table_of. intros H. destruct (defs n); [exfalso; apply H; discriminate|reflexivity]. Qed.
  Lemma ords_plain ts : Forall ordinary ts -> Forall (plain1 tab) ts.
  Proof. apply Forall_impl. exact ord_plain. Qed.

  (** The tokens of a file in which the macros used have such bodies, and what it stands for. *)
  Inductive stands : bind -> list piece -> list mtok -> Prop :=
  | st_nil rho : stands rho [] []
  | st_cons rho p ps t ts : gives pst rho p t -> clean pst rho ordinary p -> stands rho ps ts -> stands rho (p :: ps) (t ++ ts).
  Inductive uses : list mtok -> list mtok -> Prop :=
  | u_nil : uses [] []
  | u_tok t f out : ordinary t -> uses f out -> uses (t :: f) (t :: out)
  | u_obj n ps o f out : defs n = Some (Def None (flat_map ptext ps)) -> stands no_bind ps o -> uses f out -> uses (TId n :: f) (o ++ out)
  | u_call n params ps vs o f out : defs n = Some (Def (Some params) (flat_map ptext ps)) -> NoDup params -> args_ok (length params) vs ->
      Forall (Forall ordinary) vs -> stands (bind_all params vs) ps o -> uses f out -> uses (TId n :: LP :: join vs ++ RP :: f) (o ++ out).

  Notation emits2 := (emits2 tab pst ns).
  (* what is known about the parameters [qs] (last first), the arguments [a] and the binding *)
  Definition env2 (qs : list name) (a : list (list mtok)) (rho : bind) : Prop :=
    forall n, match rho n with
              | None => lookup_ix qs n 0 = None
              | Some v => exists ix, lookup_ix qs n 0 = Some ix /\ get_macro_arg ix a = Some v
              end.
  Lemma op_ok qs a rho t : env2 qs a rho -> Forall ordinary (oval rho t) -> opok tab a (lookup_macro_token qs t, oval rho t).
  Proof.
    intros E O. split; [apply ords_plain; exact O|]. cbn [fst snd]. destruct t as [n| | |]; cbn [lookup_macro_token].
    - specialize (E n). cbn [oval] in *. destruct (rho n) as [v|].
      + destruct E as (ix & E1 & E2). rewrite E1. right. exists ix. auto.
      + rewrite E. left. split; [exact (Forall_inv (ords_plain _ O))|reflexivity].
    - left. split; [exact (Forall_inv (ords_plain _ O))|reflexivity].
    - left. split; [exact (Forall_inv (ords_plain _ O))|reflexivity].
    - left. split; [exact (Forall_inv (ords_plain _ O))|reflexivity].
  Qed.
  Definition pr qs rho t := (lookup_macro_token qs t, oval rho t).
  Lemma text_chain qs rho os : forall o l, read_macro_tokens qs (ptext (Glue o os)) ++ l = ctext (pr qs rho o) (map (pr qs rho) os) l.
  Proof.
    unfold read_macro_tokens. cbn [ptext map app]. induction os as [|o2 os IH]; intros o l; [reflexivity|].
    cbn [flat_map map app ctext]. f_equal. change (lookup_macro_token qs HH) with HH. f_equal. rewrite <- IH. reflexivity.
  Qed.
  Lemma chain_ok qs a rho : env2 qs a rho -> forall os o, clean_chain pst rho ordinary o os ->
    Forall (opok tab a) (map (pr qs rho) (o :: os)) /\ made_ok tab pst (pr qs rho o) (map (pr qs rho) os).
  Proof.
    intros E. induction os as [|o2 os IH]; intros o C; destruct C as (C1 & C2 & C3).
    - split; [constructor; [now apply op_ok|constructor]|]. split; [|exact I]. intros g G. cbn [map] in G. apply ords_plain, C2. exact G.
    - destruct C3 as [C3 C4]. destruct (IH o2 C4) as [F MO]. split; [constructor; [now apply op_ok|exact F]|].
      cbn [map made_ok]. split; [|split; [exact C3|exact MO]]. intros g G. apply ords_plain, C2. cbn [map] in G |- *.
      assert (X : map snd (map (pr qs rho) os) = map (oval rho) os) by (rewrite map_map; apply map_ext; reflexivity).
      rewrite X in G. exact G.
  Qed.
  Lemma text_hd qs a rho p l : env2 qs a rho -> clean pst rho ordinary p -> hd_ok (read_macro_tokens qs (ptext p) ++ l).
  Proof.
    intros E C. destruct p as [o os|n]; [|reflexivity]. destruct (chain_ok qs a rho E os o C) as [F _]. cbn [map] in F. destruct (Forall_inv F) as [_ [[P _]|(j & Ej & _)]].
    - unfold read_macro_tokens. cbn [ptext map app hd_ok]. exact (plain1_hh tab _ P).
    - unfold read_macro_tokens. cbn [ptext map app hd_ok]. unfold pr in Ej. cbn [fst] in Ej. rewrite Ej. reflexivity.
  Qed.
  Lemma body rho ps ts : stands rho ps ts -> forall qs a i st r ex, env2 qs a rho -> length st < 59 ->
    emits2 ex (M (read_macro_tokens qs (flat_map ptext ps)) a i st r true false) ts (M [] a i st r true false) /\
    hd_ok (read_macro_tokens qs (flat_map ptext ps)).
  Proof.
    induction 1 as [rho|rho p ps t ts G C St IH]; intros qs a i st r ex E L.
    - split; [apply em2_nil, runs2_refl|exact I].
    - destruct (IH qs a i st r ex E L) as [IH1 IH2]. cbn [flat_map]. unfold read_macro_tokens. rewrite map_app. split.
      + eapply emits2_app; [|exact IH1]. fold (read_macro_tokens qs (ptext p)). fold (read_macro_tokens qs (flat_map ptext ps)).
        destruct p as [o os|n].
        * rewrite (text_chain qs rho). destruct (chain_ok qs a rho E os o C) as [F MO]. apply chain; auto.
          cbn [gives] in G. rewrite <- G. f_equal. rewrite map_map. apply map_ext. reflexivity.
        * cbn [gives] in G. destruct G as (m & Rn & ->). specialize (E n). rewrite Rn in E. destruct E as (ix & E1 & E2).
          unfold read_macro_tokens at 1. cbn [ptext map app lookup_macro_token HS]. rewrite E1. now apply hash.
      + fold (read_macro_tokens qs (ptext p)). fold (read_macro_tokens qs (flat_map ptext ps)). eapply text_hd; eauto.
  Qed.

  (* reading the arguments from the file *)
  Lemma f2_raw f ts : get_tok2 tab pst ns f false (file2 ts) = l_res (get_tok tab f false (file_state ts)) /\
    match get_tok tab f false (file_state ts) with RTok _ s => exists r, s = file_state r | _ => True end.
  Proof.
    destruct f as [|f]; [split; reflexivity|]. destruct ts as [|t ts]; [split; [reflexivity|exists []; reflexivity]|].
    rewrite gt2_eq, gt_eq. cbn. destruct t; try (split; [reflexivity|exists ts; reflexivity]). destruct (table_of defs n); (split; [reflexivity|exists ts; reflexivity]).
  Qed.
  Definition ffile (r : ares) : Prop := match r with AOk _ s => exists q, s = file_state q | _ => True end.
  Definition ffilep (r : pres) : Prop := match r with POk _ _ s => exists q, s = file_state q | _ => True end.
  Lemma f2_args f :
    (forall d t ts, macro_parse_argument2 tab pst ns f d t (file2 ts) = l_pres (macro_parse_argument tab f d t (file_state ts)) /\ ffilep (macro_parse_argument tab f d t (file_state ts))) /\
    (forall a p t ts, args_loop2 tab pst ns f a p t (file2 ts) = l_ares (args_loop tab f a p t (file_state ts)) /\ ffile (args_loop tab f a p t (file_state ts))) /\
    (forall ts, macro_args2 tab pst ns f (file2 ts) = l_ares (macro_args tab f (file_state ts)) /\ ffile (macro_args tab f (file_state ts))).
  Proof.
    induction f as [|f (P & L & A)]; [repeat split|]. split; [|split].
    - intros d t ts. rewrite mp2_eq, mp_eq. cbv zeta. destruct (((0 <? d)%Z || negb (is_cm t || is_rp t)) && negb (is_eof t)); [|split; [reflexivity|exists ts; reflexivity]].
      destruct (f2_raw f ts) as [E R]. rewrite E. destruct (get_tok tab f false (file_state ts)) as [t1 s1| |]; cbn [l_res]; [|now split|now split].
      destruct R as [q ->]. change (lft (file_state q)) with (file2 q).
      match goal with |- match macro_parse_argument2 _ _ _ f ?x t1 _ with _ => _ end = _ /\ _ => destruct (P x t1 q) as [E2 R2] end. rewrite E2.
      destruct (macro_parse_argument tab f _ t1 (file_state q)); cbn [l_pres]; [|now split|now split]. split; [reflexivity|exact R2].
    - intros a p t ts. rewrite al2_eq, al_eq. destruct (is_rp t); [split; [reflexivity|exists ts; reflexivity]|]. destruct (is_eof t); [now split|]. destruct (is_cm t).
      + destruct (f2_raw f ts) as [E R]. rewrite E. destruct (get_tok tab f false (file_state ts)) as [t1 s1| |]; cbn [l_res]; [|now split|now split]. destruct R as [q ->]. apply L.
      + destruct (P 0%Z t ts) as [E R]. rewrite E. destruct (macro_parse_argument tab f 0 t (file_state ts)) as [b t1 s1| |]; cbn [l_pres]; [|now split|now split]. destruct R as [q ->]. apply L.
    - intros ts. rewrite ma2_eq, ma_eq. destruct (f2_raw f ts) as [E R]. rewrite E. destruct (get_tok tab f false (file_state ts)) as [t1 s1| |]; cbn [l_res]; [|now split|now split]. destruct R as [q ->]. apply L.
  Qed.
  Lemma call_file n m vs r : tab n = Some m -> m_argc m = Some (length vs) -> args_ok (length vs) vs -> Forall (Forall source) vs ->
    forall o, evt2 tab pst ns true (M (m_toks m) (rev vs) (Some n) [Ctx [] [] None] r true false) o ->
    evt2 tab pst ns true (file2 (TId n :: LP :: join vs ++ RP :: r)) o.
  Proof.
    intros T Ar (A1 & _ & A3) Fs o [k K].
    assert (EA : exists k2, forall f, k2 <= f -> macro_args tab f (file_state (join vs ++ RP :: r)) = AOk (rev vs) (file_state r)).
    { apply (args_done tab vs _ (file_state (RP :: r))); auto; [|apply file_tt]. apply file_raws. apply join_source. exact Fs. }
    destruct EA as [k2 K2]. exists (S (S (k + k2))). intros [|[|f]] L; try lia. rewrite gt2_eq. cbv zeta.
    unfold file2. cbn [base file_state cur c_lst stack inp]. rewrite T. unfold attempt2. cbn [base setb]. 
    change (macro_is_already_expanding n {| cur := {| c_lst := []; c_args := []; c_ident := None |}; stack := []; inp := LP :: join vs ++ RP :: r |}) with false. cbv iota.
    rewrite Ar.
    assert (E1 : get_tok2 tab pst ns (S f) true (setb (file_state (LP :: join vs ++ RP :: r)) (S2 (file_state (TId n :: LP :: join vs ++ RP :: r)) true false)) = R2Tok LP (file2 (join vs ++ RP :: r))) by reflexivity.
    unfold file_state, setb in E1. cbn [xa pl base] in E1. unfold setb. cbn [xa pl base cur stack inp]. rewrite E1. change (is_lp LP) with true. cbv iota.
    destruct (f2_args (S f)) as (_ & _ & E2). rewrite (proj1 (E2 _)). rewrite K2 by lia. cbn [l_ares]. rewrite rev_length, Nat.eqb_refl.
    change (begin2 (Some n) (m_toks m) (rev vs) (lft (file_state r))) with (Some (M (m_toks m) (rev vs) (Some n) [Ctx [] [] None] r true false)). cbv iota. apply K. lia.
  Qed.
  Lemma obj_file n m r : tab n = Some m -> m_argc m = None ->
    forall o, evt2 tab pst ns true (M (m_toks m) [] (Some n) [Ctx [] [] None] r true false) o -> evt2 tab pst ns true (file2 (TId n :: r)) o.
  Proof.
    intros T Ar o [k K]. exists (S k). intros [|f] L; try lia. rewrite gt2_eq. cbv zeta.
    unfold file2. cbn [base file_state cur c_lst stack inp]. rewrite T. unfold attempt2. cbn [base setb].
    change (macro_is_already_expanding n {| cur := {| c_lst := []; c_args := []; c_ident := None |}; stack := []; inp := r |}) with false. cbv iota. rewrite Ar.
    match goal with |- context [begin2 ?x ?y ?z ?s] => change (begin2 x y z s) with (Some (M (m_toks m) [] (Some n) [Ctx [] [] None] r true false)) end. cbv iota. apply K. lia.
  Qed.
  Lemma uses_emits f out : uses f out -> emits2 true (file2 f) out (file2 []).
  Proof.
    induction 1 as [|t f out O U IH|n ps o f out D S U IH|n params ps vs o f out D N A Or S U IH].
    - apply em2_nil, runs2_refl.
    - econstructor; [|exact IH]. apply evt2_S. exists 0. intros k _. rewrite gt2_eq. cbn. destruct t as [n| | |]; try easy; try reflexivity.
      apply ord_plain in O. cbn in O. now rewrite O.
    - eapply emits2_app; [|exact IH].
      assert (T : tab n = Some (Macro (read_macro_tokens [] (flat_map ptext ps)) None)) by (unfold table_of; rewrite D; reflexivity).
      destruct (body _ _ _ S [] [] (Some n) [Ctx [] [] None] f true) as [B _]; [intros m; reflexivity|cbn; lia|].
      eapply emits2_runs; [intros q; exact (obj_file n _ f T eq_refl q)|].
      rewrite <- (app_nil_r o). eapply emits2_app; [exact B|]. apply em2_nil. apply r_pop.
    - eapply emits2_app; [|exact IH].
      assert (T : tab n = Some (Macro (read_macro_tokens (rev params) (flat_map ptext ps)) (Some (length vs)))).
      { unfold table_of. rewrite D. unfold handle_define. cbn [d_params d_body]. do 2 f_equal. f_equal. symmetry. apply A. }
      assert (LV : length params = length vs) by (symmetry; apply A).
      destruct (body _ _ _ S (rev params) (rev vs) (Some n) [Ctx [] [] None] f true) as [B _]; [intros m; now apply lookup_bind|cbn; lia|].
      eapply emits2_runs; [intros q; apply (call_file n _ vs f T eq_refl)|].
      + rewrite <- LV. exact A.
      + eapply Forall_impl; [|exact Or]. intros v. apply Forall_impl. intros t. destruct t; cbn; tauto.
      + rewrite <- (app_nil_r o). eapply emits2_app; [exact B|]. apply em2_nil. apply r_pop.
  Qed.
  Lemma uses_noeof f out : uses f out -> Forall (fun t => is_eof t = false) out.
  Proof.
    assert (OE : forall ts, Forall ordinary ts -> Forall (fun t => is_eof t = false) ts) by (intros ts; apply Forall_impl; intros t; destruct t; easy).
    assert (SE : forall rho ps o, stands rho ps o -> Forall (fun t => is_eof t = false) o).
    { induction 1 as [|rho p ps t ts G C St IH]; [constructor|]. apply Forall_app. split; [|exact IH]. destruct p as [x xs|q].
      - apply OE. destruct xs; destruct C as (_ & C & _); apply C; exact G.
      - destruct G as (m & _ & ->). repeat constructor. }
    induction 1 as [|t f out O U IH|n ps o f out D S U IH|n params ps vs o f out D N A Or S U IH]; [constructor| | |].
    - constructor; [|exact IH]. now destruct t.
    - apply Forall_app. split; [exact (SE _ _ _ S)|exact IH].
    - apply Forall_app. split; [exact (SE _ _ _ S)|exact IH].
  Qed.
  (** Every file whose macro bodies are chains of ##, # and ordinary tokens, used with arguments of ordinary tokens: the tokens
      delivered are those C prescribes, and then the end of the file.  What two pasted tokens give is [pst]: see below. *)
  Theorem c11_expansion_partial f out : uses f out -> exists k, forall fuel m, k <= fuel -> length out < m -> all_toks2 tab pst ns m (file2 f) fuel = Some out.
  Proof.
    intros U. pose proof (uses_noeof _ _ U) as NE. pose proof (uses_emits _ _ U) as E.
    assert (V : evt2 tab pst ns true (file2 []) (R2Tok TEof (file2 []))) by (apply evt2_S; exists 0; intros k _; reflexivity).
    clear U. revert E. generalize (file2 f). intros s E. revert V. generalize dependent (file2 []). intros s' E V.
    induction E as [s s' R|s t s1 ts s' V1 E IH].
    - destruct (R _ V) as (k & K). exists k. intros fuel m L Lm. destruct m as [|m]; [lia|]. cbn [all_toks2]. rewrite K by lia. reflexivity.
    - destruct (IH (Forall_inv_tail NE) V) as (k & K). destruct V1 as (k1 & K1). exists (k + k1). intros fuel m L Lm. destruct m as [|m]; [lia|]. cbn [List.length] in Lm. cbn [all_toks2].
      rewrite K1 by lia. rewrite (Forall_inv NE). rewrite K by lia. reflexivity.
  Qed.
End File.

(** ** What a pasted token is: the identifier table *)
Section Spelling.
  Import Base Numerals Store StoreProof Literals ShArith PasteStore.
  Local Open Scope Z_scope.
  Variable wide wb sf : bool.
  Notation paste := (paste_store wide wb sf).
  (** Whatever has been read before: an identifier (or keyword, type or macro name) pasted with one or with a decimal integer, and an
      integer pasted with an identifier, give exactly what reading the concatenation of the spellings as an identifier gives. *)
  Theorem c11_as_read st a h l r s1 s2 : reach st a h ->
    (is_name a l s1 /\ (is_name a r s2 \/ is_int wb sf r s2)) \/ (is_int wb sf l s1 /\ is_name a r s2 /\ fst r <> TYPE) ->
    paste st l r = read_name st (s1 ++ s2).
  Proof. apply paste_spelling. Qed.
  Lemma ascii_clean s : ascii s -> clean s.
  Proof. apply Forall_impl. intros c. lia. Qed.
  Lemma decimal_ascii n : 0 <= n -> ascii (decimal n).
  Proof.
    intros H. pose proof (ShFacts.decimal_word n H) as W. rewrite forallb_forall in W. apply Forall_forall. intros c Hc. specialize (W c Hc).
    unfold is_word in W. rewrite !orb_true_iff, !andb_true_iff, !Z.leb_le, Z.eqb_eq in W. lia.
  Qed.
  (** ... that is: the symbol with that name, with the kind it has in the table. *)
  Theorem c11_spelling st a h l r s1 s2 st' k v : reach st a h ->
    (is_name a l s1 /\ (is_name a r s2 \/ is_int wb sf r s2)) \/ (is_int wb sf l s1 /\ is_name a r s2 /\ fst r <> TYPE) ->
    paste st l r = Some (st', (k, v)) ->
    let a' := astep a (Intern (s1 ++ s2)) v in
    reach st' a' ((Intern (s1 ++ s2), v) :: h) /\ exists y, In (v, y) (syms a') /\ sym_name y = s1 ++ s2 /\ sym_kind y = k.
  Proof.
    intros R H E a'. rewrite (c11_as_read _ _ _ _ _ _ _ R H) in E. unfold read_name in E.
    destruct (intern st (s1 ++ s2)) as [[st2 p]|] eqn:I; [|discriminate]. injection E as -> <- ->.
    assert (A : ascii (s1 ++ s2)).
    { apply Forall_app. destruct H as [[(_ & y & _ & _ & A1) [(_ & y2 & _ & _ & A2)|(_ & V & ->)]]|[(_ & V & ->) [(_ & y2 & _ & _ & A2) _]]]; split; auto; apply decimal_ascii; lia. }
    assert (R' : reach st' a' ((Intern (s1 ++ s2), v) :: h)) by (eapply reach_step; [exact R|apply ascii_clean; exact A|exact I]).
    split; [exact R'|]. destruct (reach_intern _ _ _ _ _ R' (or_introl eq_refl)) as (y & Y & N). exists y. split; [exact Y|]. split; [exact N|].
    destruct (reach_inv _ _ _ R') as [bk J]. destruct (i_sym _ _ _ J _ _ Y) as (_ & _ & K & _). symmetry. exact K.
  Qed.
  (** Two positive integers: the integer whose digits are those of both. *)
  Theorem c11_integers st m n v : 0 < m -> 0 < n -> decimal v = decimal m ++ decimal n -> 0 <= v < 2147483648 ->
    paste st (INTEGER, - m) (INTEGER, - n) = Some (st, (INTEGER, - v)).
  Proof.
    intros Hm Hn Hv Hr. unfold paste_store. change ((INTEGER =? IDENTIFIER) || (INTEGER =? TYPE) || (INTEGER =? MACRO) || (INTEGER <=? WHILE_KW)) with false. cbv iota.
    assert (IK : int_kind wb sf INTEGER = true) by reflexivity. rewrite IK. rewrite !Z.opp_involutive.
    assert (W : wide && ((m <? 0) || (n <? 0)) = false) by (destruct (Z.ltb_spec m 0), (Z.ltb_spec n 0); try lia; apply andb_false_r). rewrite W.
    rewrite (PropNumbers.c11_paste_integers_partial m n (decimal m) (decimal n) v); auto; try (apply ShFacts.decimal_ok; lia); try lia.
    rewrite <- Hv. apply ShFacts.decimal_ok. lia.
  Qed.
  (** Deviations.  x ## 01 and x ## 0x10 are pasted as x1 and x16: the value of the literal, in decimal, is used. *)
  Theorem c11_octal_refuted st a h p y k : reach st a h -> In (p, y) (syms a) -> sym_name y = [120] -> int_kind wb sf k = true ->
    paste st (IDENTIFIER, p) (k, - 1) = read_name st [120; 49] /\ paste st (IDENTIFIER, p) (k, - 16) = read_name st [120; 49; 54].
  Proof.
    intros R Y N K.
    assert (L : is_name a (IDENTIFIER, p) [120]) by (split; [now left|]; exists y; repeat split; auto; repeat constructor; lia).
    assert (Q : forall n, 0 <= n < 2 ^ 63 -> is_int wb sf (k, - n) (decimal n)) by (intros n Hn; split; [exact K|]; cbn [snd]; rewrite Z.opp_involutive; split; [exact Hn|reflexivity]).
    split.
    - rewrite (c11_as_read st a h (IDENTIFIER, p) (k, - 1) [120] (decimal 1) R); [reflexivity|]. left. split; [exact L|right; exact (Q 1 ltac:(lia))].
    - rewrite (c11_as_read st a h (IDENTIFIER, p) (k, - 16) [120] (decimal 16) R); [reflexivity|]. left. split; [exact L|right; exact (Q 16 ltac:(lia))].
  Qed.
  (* an integer is not pasted with the name of a type: 1 ## t *)
  Theorem c11_type_refuted st p n : paste st (INTEGER, - n) (TYPE, p) = None.
  Proof.
    unfold paste_store. change ((INTEGER =? IDENTIFIER) || (INTEGER =? TYPE) || (INTEGER =? MACRO) || (INTEGER <=? WHILE_KW)) with false. cbv iota.
    change (int_kind wb sf INTEGER) with true. cbv iota. rewrite nk_ik by (right; now left). reflexivity.
  Qed.
End Spelling.
(* + ## + is not refused and is not ++: the operands are taken for identifiers.  Here, after x has been read. *)
Theorem c11_punctuator_refuted wide wb sf : exists st p st', Store.reach st (Store.astep Store.astore0 (Store.Intern [120%Z]) p) [(Store.Intern [120%Z], p)] /\
  exists q, PasteStore.paste_store wide wb sf st (43, p)%Z (43, p)%Z = Some (st', (Store.IDENTIFIER, q)).
Proof.
  eexists. exists 1009%Z. eexists. split.
  - eapply Store.reach_step; [apply Store.reach_init|repeat constructor|]. vm_compute. reflexivity.
  - eexists. vm_compute. reflexivity.
Qed.

(** ** The replay loop: uses outside the fragment *)
(* names are numbers below 40 here, and integers below 10 *)
Definition cat (a b : mtok) : option mtok :=
  match a, b with
  | TId n, TId m => Some (TId (50 * n + m))
  | TId n, TT 401 v => Some (TId (50 * n + 40 + Z.to_nat (- v)))
  | TT 401 v, TId n => Some (TId (50 * (40 + Z.to_nat (- v)) + n))
  | _, _ => None
  end.
Definition pnut2_gives defs ts out := exists k, all_toks2 (table_of defs) cat 0 k (file2 ts) k = Some out.
Definition nu (v : Z) : mtok := TT 401 (- v).
(* #define A 1   #define CAT(a,b) a ## b ; the file: CAT(p, A).  An operand of ## is not expanded (6.10.3.1p1): C gives pA; pnut p1. *)
Theorem c11_right_expanded_refuted : let defs := two 1 (Def None [nu 1]) 2 (Def (Some [8; 9]) (ptext (Glue (TId 8) [TId 9]))) in
  gives cat (bind_all [8; 9] [[TId 5]; [TId 1]]) (Glue (TId 8) [TId 9]) [TId 251] /\
  pnut2_gives defs [TId 2; LP; TId 5; CM; TId 1; RP] [TId 291].
Proof. split; [vm_compute; reflexivity|exists 60; vm_compute; reflexivity]. Qed.
(* #define A y   #define O A ## x ; the file: O.  C gives Ax; pnut yx. *)
Theorem c11_left_expanded_refuted : let defs := two 1 (Def None [TId 6]) 2 (Def None (ptext (Glue (TId 1) [TId 5]))) in
  gives cat no_bind (Glue (TId 1) [TId 5]) [TId 55] /\ pnut2_gives defs [TId 2] [TId 305].
Proof. split; [vm_compute; reflexivity|exists 60; vm_compute; reflexivity]. Qed.
(* #define A y   #define CAT(a,b) a ## b ; the file: CAT(A z, x).  C gives y zx (A is expanded: it is no operand of ##); pnut yz x. *)
Theorem c11_premature_refuted : let defs := two 1 (Def None [TId 6]) 2 (Def (Some [8; 9]) (ptext (Glue (TId 8) [TId 9]))) in
  gives cat (bind_all [8; 9] [[TId 6; TId 7]; [TId 5]]) (Glue (TId 8) [TId 9]) [TId 6; TId 355] /\
  pnut2_gives defs [TId 2; LP; TId 1; TId 7; CM; TId 5; RP] [TId 307; TId 5].
Proof. split; [vm_compute; reflexivity|exists 60; vm_compute; reflexivity]. Qed.
(* #define F(a,b,c) b ## c x ; the file: F(1,,2).  The empty operand disappears: C gives 2 x; pnut pastes 2 and x. *)
Theorem c11_empty_left_refuted : let defs := two 2 (Def (Some [7; 8; 9]) (ptext (Glue (TId 8) [TId 9]) ++ [TId 4])) 2 (Def None []) in
  gives cat (bind_all [7; 8; 9] [[nu 1]; []; [nu 2]]) (Glue (TId 8) [TId 9]) [nu 2] /\
  pnut2_gives defs [TId 2; LP; nu 1; CM; CM; nu 2; RP] [TId 2104].
Proof. split; [vm_compute; reflexivity|exists 60; vm_compute; reflexivity]. Qed.
(* #define G(a,b) x ## b ## z ; the file: G(1,) y.  C gives xz y; pnut gives x and pastes z with the token after the use. *)
Theorem c11_empty_middle_refuted : let defs := two 2 (Def (Some [8; 9]) (ptext (Glue (TId 4) [TId 9; TId 5]))) 2 (Def None []) in
  gives cat (bind_all [8; 9] [[nu 1]; []]) (Glue (TId 4) [TId 9; TId 5]) [TId 205] /\
  pnut2_gives defs [TId 2; LP; nu 1; CM; RP; TId 6] [TId 4; TId 256].
Proof. split; [vm_compute; reflexivity|exists 60; vm_compute; reflexivity]. Qed.
(* #define S(a) #a: an argument that is not a single identifier or keyword gives the string NOT_SUPPORTED, whatever it is *)
Theorem c11_string_refuted tab pst ns j a0 a i st r l f ex : get_macro_arg j a = Some a0 -> hd_ok l -> a0 <> [] -> (forall n, a0 <> [TId n]) ->
  get_tok2 tab pst ns (S (S (S f))) ex (M (HS :: TArg j :: l) a i st r true false) = R2Tok (TT STRING_TOK ns) (M l a i st r true false).
Proof.
  intros Ea Hh N0 N. rewrite gt2_eq. cbv zeta. unfold M. cbn [base cur c_lst stack pl is_hh is_tt HS].
  change (Z.eqb 35 35) with true. cbv iota. rewrite st2_eq.
  match goal with |- context [get_tok2 tab pst ns (S f) false ?s] => change s with (M (TArg j :: l) a i st r false false) end. rewrite g_arg_raw by exact Hh.
  cbv zeta. unfold setx, M. cbn [base cur c_args]. rewrite Ea. unfold string_of. destruct a0 as [|[] [|]]; try reflexivity. now destruct (N n).
Qed.

(** ** A concrete case
    #define CAT(a,b) a ## b c ## 1    #define S(x) #x    #define O u ## v
    CAT(p q, r s) S(t) O ; *)
Definition exdefs : name -> option mdef := fun n =>
  if Nat.eqb n 1 then Some (Def (Some [8; 9]) (ptext (Glue (TId 8) [TId 9]) ++ ptext (Glue (TId 10) [nu 1])))
  else if Nat.eqb n 2 then Some (Def (Some [8]) (ptext (Str 8)))
  else if Nat.eqb n 3 then Some (Def None (ptext (Glue (TId 20) [TId 21]))) else None.
Definition exfile := [TId 1; LP; TId 11; TId 12; CM; TId 13; TId 14; RP; TId 2; LP; TId 15; RP; TId 3; TT 59 0].
Definition exout := [TId 11; TId 613; TId 14; TId 541; TT 411 15; TId 1021; TT 59 0].
Example c11_uses : uses exdefs cat exfile exout.
Proof.
  assert (OI : forall n, 3 < n -> ordinary exdefs (TId n)).
  { intros n Hn. cbn. unfold is_macro, exdefs. destruct (Nat.eqb_spec n 1); [lia|]. destruct (Nat.eqb_spec n 2); [lia|]. destruct (Nat.eqb_spec n 3); [lia|]. intros X. now apply X. }
  assert (OT : forall c v, c <> 35%Z -> c <> 471%Z -> ordinary exdefs (TT c v)) by (intros; split; assumption).
  apply (u_call exdefs cat 1 [8; 9] [Glue (TId 8) [TId 9]; Glue (TId 10) [nu 1]] [[TId 11; TId 12]; [TId 13; TId 14]] [TId 11; TId 613; TId 14; TId 541]
    [TId 2; LP; TId 15; RP; TId 3; TT 59 0] [TT 411 15; TId 1021; TT 59 0]); try reflexivity.
  - repeat constructor; cbn; intuition lia.
  - repeat split; repeat constructor.
  - repeat constructor; apply OI; lia.
  - apply (st_cons exdefs cat _ _ [_] [TId 11; TId 613; TId 14] [TId 541]); [reflexivity| |].
    + cbn. repeat split; try discriminate; try (repeat constructor; apply OI; lia).
      * intros ts [= <-]. repeat constructor; apply OI; lia.
      * intros ts [= <-]. repeat constructor; apply OI; lia.
    + apply (st_cons exdefs cat _ _ [] [TId 541] []); [reflexivity| |constructor]. cbn. repeat split; try discriminate; repeat constructor; try discriminate; try (apply OI; lia).
      * intros ts [= <-]. repeat constructor. apply OI. lia.
      * intros ts [= <-]. repeat constructor; discriminate.
  - apply (u_call exdefs cat 2 [8] [Str 8] [[TId 15]] [TT 411 15] [TId 3; TT 59 0] [TId 1021; TT 59 0]); try reflexivity.
    + repeat constructor; cbn; tauto.
    + repeat split; repeat constructor.
    + repeat constructor; apply OI; lia.
    + apply (st_cons exdefs cat _ _ [] [TT 411 15] []); [exists 15; split; reflexivity|exact I|constructor].
    + apply (u_obj exdefs cat 3 [Glue (TId 20) [TId 21]] [TId 1021] [TT 59 0] [TT 59 0]); [reflexivity| |].
      * apply (st_cons exdefs cat _ _ [] [TId 1021] []); [reflexivity| |constructor]. cbn. repeat split; try discriminate; try (repeat constructor; apply OI; lia).
        -- intros ts [= <-]. repeat constructor; apply OI; lia.
        -- intros ts [= <-]. repeat constructor; apply OI; lia.
      * apply u_tok; [apply OT; discriminate|constructor].
Qed.
Example c11_instance : exists k, all_toks2 (table_of exdefs) cat 0 k (file2 exfile) k = Some exout.
Proof. destruct (c11_expansion_partial exdefs cat 0 exfile exout c11_uses) as [k K]. exists (k + 8). apply K; cbn; lia. Qed.
