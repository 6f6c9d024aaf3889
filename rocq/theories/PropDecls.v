(** * C29: undone output leaves no trace and deferred output is placed where it is replayed *)
From Coq Require Import ZArith List Lia Bool.
From Verif Require Import Base AsmProof Text PropText Decls.
Import ListNotations.
Open Scope Z_scope.

(** What the code generator does with its output: add a line, change the indentation, generate a piece of code and
    set it aside ([Defer]), to be placed later any number of times ([Use], counting the pieces set aside from the
    innermost) either at the current indentation or as it was, and leave a line to be filled in after some
    more code is generated ([Hole]). *)
Inductive prog :=
| Done | Emit (d : Z) (k : prog) | Nest (z : Z) (k : prog)
| Defer (body k : prog) | Use (i : nat) (reindent : bool) (k : prog) | Hole (body : prog) (d : Z) (k : prog).

(** The lines meant: indentation and text. *)
Fixpoint sem (env : list (list (Z * Z))) (lv : Z) (p : prog) : Z * list (Z * Z) :=
  match p with
  | Done => (lv, [])
  | Emit d k => let (l, o) := sem env lv k in (l, (lv, d) :: o)
  | Nest z k => sem env (lv + z) k
  | Defer b k => let (l, ob) := sem env lv b in sem (ob :: env) l k
  | Use i ri k => let (l, o) := sem env lv k in (l, map (fun x => (if ri : bool then lv else fst x, snd x)) (nth i env []) ++ o)
  | Hole b d k => let (l, ob) := sem env lv b in let (l', o) := sem env l k in (l', (lv, d) :: ob ++ o)
  end.
(** A line can be left to be filled in only inside at least one level of indentation. *)
Fixpoint holes_ok (lv : Z) (p : prog) : Prop :=
  match p with
  | Done => True
  | Emit _ k | Use _ _ k => holes_ok lv k
  | Nest z k => holes_ok (lv + z) k
  | Defer b k => holes_ok lv b /\ holes_ok (fst (sem [] lv b)) k
  | Hole b _ k => 1 <= lv /\ holes_ok lv b /\ holes_ok (fst (sem [] lv b)) k
  end.
(** The calls made. *)
Fixpoint run (env : list (nat * nat)) (p : prog) (g : gst) : option gst :=
  match p with
  | Done => Some g
  | Emit d k => run env k (append_glo_decl d g)
  | Nest z k => run env k (GS (decls g) (nest g + z))
  | Defer b k =>
      let start := length (decls g) in
      match run env b g with
      | Some g1 => run ((start, length (decls g1)) :: env) k (undo_glo_decls start g1)
      | None => None
      end
  | Use i ri k => let (s, e) := nth i env (O, O) in run env k (replay_glo_decls s e ri g)
  | Hole b d k =>
      let ix := length (decls g) in
      match run env b (append_glo_decl_fixup g) with
      | Some g1 => match fixup_glo_decl ix d g1 with Some g2 => run env k g2 | None => None end
      | None => None
      end
  end.
(** The lines printed: [show] gives the characters of a text; empty texts give no line. *)
Definition lines (show : Z -> list Z) (o : list (Z * Z)) : list Z :=
  flat_map (fun x => if snd x =? 0 then [] else repeat 32 (2 * Z.to_nat (fst x)) ++ show (snd x) ++ [10]) o.

(** ** Proof *)
Definition slice (l : list ent) (s e : nat) := firstn (e - s) (skipn s l).
Definition pairs (a : Z) (l : list ent) : list (Z * Z) := map (fun x => (lvl x, dec x)) (filter (fun x => act x =? a) l).
Lemma slice_app l x s e : (e <= length l)%nat -> slice (l ++ x) s e = slice l s e.
Proof.
  intros H. unfold slice. destruct (Nat.le_gt_cases s (length l)) as [Hs|Hs].
  - rewrite skipn_app, firstn_app. replace (s - length l)%nat with O by lia. cbn [skipn].
    rewrite skipn_length. replace (e - s - (length l - s))%nat with O by lia. cbn [firstn]. now rewrite app_nil_r.
  - replace (e - s)%nat with O by lia. reflexivity.
Qed.
Lemma pairs_app a x y : pairs a (x ++ y) = pairs a x ++ pairs a y.
Proof. unfold pairs. now rewrite filter_app, map_app. Qed.
Lemma dec_from_app l x : dec_from (length l) (l ++ x) = l ++ dec_from 0 x.
Proof. induction l as [|a l IH]; cbn [length app dec_from]; [reflexivity|]. now rewrite IH. Qed.
Lemma dec_from_len n l : length (dec_from n l) = length l.
Proof. revert n. induction l as [|a l IH]; intros [|n]; cbn [dec_from length]; auto. Qed.
Lemma pairs_dec x : pairs 0 (dec_from 0 x) = pairs 1 x.
Proof.
  unfold pairs. induction x as [|a x IH]; cbn [dec_from filter]; [reflexivity|]. cbn [act].
  replace (act a - 1 =? 0) with (act a =? 1) by (destruct (Z.eqb_spec (act a) 1), (Z.eqb_spec (act a - 1) 0); lia || reflexivity).
  destruct (act a =? 1); cbn [map lvl dec]; now rewrite IH.
Qed.
Lemma set_nth_app l x r f : set_nth (length l) f (l ++ x :: r) = l ++ f x :: r.
Proof. induction l as [|a l IH]; cbn [length app set_nth]; [reflexivity|]. now rewrite IH. Qed.
Lemma nth_app_len {A} (l : list A) x r d : nth (length l) (l ++ x :: r) d = x.
Proof. induction l; cbn; auto. Qed.

Lemma replay_ok ri : forall n s L X nv, (s + n <= length L)%nat ->
  replay_loop s n ri (GS (L ++ X) nv) =
  GS ((L ++ X) ++ map (fun x => En (if ri then nv else fst x) 1 (snd x)) (pairs 0 (slice L s (s + n)))) nv.
Proof.
  induction n as [|n IH]; intros s L X nv H.
  - cbn [replay_loop]. unfold slice. replace (s + 0 - s)%nat with O by lia. cbn. now rewrite app_nil_r.
  - cbn [replay_loop decls nest append_glo_decl].
    assert (SL : slice L s (s + S n) = nth s L (En 0 0 0) :: slice L (S s) (S s + n)).
    { unfold slice. replace (s + S n - s)%nat with (S n) by lia. replace (S s + n - S s)%nat with n by lia.
      clear - H. revert s H. induction L as [|a L IHL]; intros s H; cbn [length] in H; [lia|]. destruct s as [|s]; [reflexivity|].
      cbn [skipn nth]. apply (IHL s). lia. }
    rewrite SL. rewrite app_nth1 by lia. set (x := nth s L (En 0 0 0)).
    unfold pairs at 1. cbn [filter]. destruct (act x =? 0) eqn:E.
    + destruct ri.
      * unfold append_glo_decl. cbn [decls nest]. rewrite <- app_assoc. rewrite IH by lia. f_equal. cbn [map].
        rewrite <- !app_assoc. reflexivity.
      * unfold append_glo_decl. cbn [decls nest]. rewrite set_nth_app. cbn [act dec].
        rewrite <- app_assoc. rewrite IH by lia. f_equal. cbn [map fst snd]. rewrite <- !app_assoc. reflexivity.
    + rewrite IH by lia. reflexivity.
Qed.
Lemma pairs_made ri nv l : pairs 1 (map (fun x => En (if ri : bool then nv else fst x) 1 (snd x)) l) = map (fun x => (if ri then nv else fst x, snd x)) l.
Proof. unfold pairs. induction l as [|a l IH]; [reflexivity|]. cbn [map filter act Z.eqb Pos.eqb lvl dec]. now rewrite IH. Qed.

Definition envok (L : list ent) (env : list (nat * nat)) (senv : list (list (Z * Z))) : Prop :=
  Forall2 (fun r o => (fst r <= snd r <= length L)%nat /\ pairs 0 (slice L (fst r) (snd r)) = o) env senv.
Lemma envok_app L X env senv : envok L env senv -> envok (L ++ X) env senv.
Proof.
  unfold envok. induction 1 as [|r o env senv [H1 H2] H IH]; constructor; auto.
  rewrite app_length. split; [lia|]. rewrite slice_app by lia. exact H2.
Qed.
Lemma sem_level p : forall e1 e2 lv, fst (sem e1 lv p) = fst (sem e2 lv p).
Proof.
  induction p as [|d k IH|z k IH|b IHb k IH|i ri k IH|b IHb d k IH]; intros e1 e2 lv; cbn [sem]; auto.
  - specialize (IH e1 e2 lv). destruct (sem e1 lv k), (sem e2 lv k). exact IH.
  - specialize (IHb e1 e2 lv). destruct (sem e1 lv b), (sem e2 lv b). cbn in IHb. subst. apply IH.
  - specialize (IH e1 e2 lv). destruct (sem e1 lv k), (sem e2 lv k). exact IH.
  - specialize (IHb e1 e2 lv). destruct (sem e1 lv b), (sem e2 lv b). cbn in IHb. subst z0.
    specialize (IH e1 e2 z). destruct (sem e1 z k), (sem e2 z k). exact IH.
Qed.

Lemma dec_le x : Forall (fun x => act x <= 1) x -> Forall (fun x => act x <= 0) (dec_from 0 x).
Proof. induction 1 as [|a x H _ IH]; cbn [dec_from]; constructor; auto. cbn. lia. Qed.
Lemma pairs_le x : Forall (fun x => act x <= 0) x -> pairs 1 x = [].
Proof. unfold pairs. induction 1 as [|a x H _ IH]; cbn [filter]; [reflexivity|]. destruct (Z.eqb_spec (act a) 1); [lia|exact IH]. Qed.

Lemma run_ok p : forall env senv L nv, envok L env senv -> holes_ok nv p ->
  exists X, run env p (GS L nv) = Some (GS (L ++ X) (fst (sem senv nv p))) /\ pairs 1 X = snd (sem senv nv p) /\
            Forall (fun x => act x <= 1) X.
Proof.
  induction p as [|d k IH|z k IH|b IHb k IH|i ri k IH|b IHb d k IH]; intros env senv L nv He Hh; cbn [run sem holes_ok] in *.
  - exists []. rewrite app_nil_r. auto.
  - unfold append_glo_decl. cbn [decls nest]. destruct (IH env senv (L ++ [En nv 1 d]) nv (envok_app _ _ _ _ He) Hh) as (X & E1 & E2 & E3).
    exists (En nv 1 d :: X). rewrite E1. rewrite <- app_assoc. destruct (sem senv nv k). cbn in *. split; [reflexivity|].
    split; [unfold pairs in *; cbn; now rewrite E2|]. constructor; [cbn; lia|exact E3].
  - cbn [decls nest]. exact (IH env senv L (nv + z) He Hh).
  - destruct Hh as [Hb Hk]. cbn [decls]. destruct (IHb env senv L nv He Hb) as (Xb & E1 & E2 & E3). rewrite E1.
    rewrite (sem_level b [] senv) in Hk. destruct (sem senv nv b) as [l ob] eqn:Es. cbn [fst snd] in *. cbn [decls].
    unfold undo_glo_decls. cbn [decls nest]. rewrite dec_from_app.
    destruct (IH ((length L, length (L ++ Xb)) :: env) (ob :: senv) (L ++ dec_from 0 Xb) l) as (X & F1 & F2 & F3); [|exact Hk|].
    + constructor; [|now apply envok_app]. cbn [fst snd]. rewrite !app_length, dec_from_len. split; [lia|].
      unfold slice. rewrite skipn_app, skipn_all, Nat.sub_diag. cbn [skipn app].
      rewrite firstn_all2 by (rewrite dec_from_len; lia). rewrite pairs_dec. exact E2.
    + exists (dec_from 0 Xb ++ X). rewrite F1. rewrite <- app_assoc. split; [reflexivity|].
      rewrite pairs_app, F2, (pairs_le (dec_from 0 Xb)) by (now apply dec_le). split; [reflexivity|].
      apply Forall_app. split; [|exact F3]. eapply Forall_impl; [|apply dec_le, E3]. cbn. intros; lia.
  - destruct (nth i env (O, O)) as [s e] eqn:En'.
    assert (R : (s <= e <= length L)%nat /\ pairs 0 (slice L s e) = nth i senv []).
    { clear - He En'. revert i En'. induction He as [|r o env senv [H1 H2] He IH]; intros [|i] E; cbn [nth] in *.
      - injection E as <- <-. split; [lia|]. unfold slice. reflexivity.
      - injection E as <- <-. split; [lia|]. reflexivity.
      - subst r. cbn [fst snd] in *. auto.
      - apply IH, E. }
    destruct R as [R1 R2]. unfold replay_glo_decls.
    pose proof (replay_ok ri (e - s) s L [] nv ltac:(lia)) as RL. rewrite app_nil_r in RL. rewrite RL.
    replace (s + (e - s))%nat with e by lia. rewrite R2.
    set (Y := map _ (nth i senv [])).
    destruct (IH env senv (L ++ Y) nv (envok_app _ _ _ _ He) Hh) as (X & E1 & E2 & E3).
    exists (Y ++ X). rewrite E1, <- app_assoc. destruct (sem senv nv k). cbn [fst snd] in *. split; [reflexivity|].
    split; [rewrite pairs_app, E2; unfold Y; now rewrite pairs_made|].
    apply Forall_app. split; [|exact E3]. unfold Y. apply Forall_forall. intros x Hx. apply in_map_iff in Hx as (y & <- & _). cbn. lia.
  - destruct Hh as (Hlv & Hb & Hk). cbn [decls]. unfold append_glo_decl_fixup. cbn [decls nest].
    destruct (IHb env senv (L ++ [En (- nv) 1 0]) nv (envok_app _ _ _ _ He) Hb) as (Xb & E1 & E2 & E3). rewrite E1.
    rewrite (sem_level b [] senv) in Hk. destruct (sem senv nv b) as [l ob] eqn:Es. cbn [fst snd] in *.
    unfold fixup_glo_decl. cbn [decls nest]. rewrite <- app_assoc. cbn [app]. rewrite nth_app_len. cbn [lvl].
    destruct (Z.leb_spec 0 (- nv)); [lia|]. rewrite set_nth_app. cbn [lvl act].
    rewrite Z.opp_involutive. destruct (IH env senv (L ++ En nv 1 d :: Xb) l (envok_app _ _ _ _ He) Hk) as (X & F1 & F2 & F3).
    exists (En nv 1 d :: Xb ++ X). rewrite F1, <- app_assoc. destruct (sem senv l k) as [l' o]. cbn [fst snd app] in *. split; [reflexivity|].
    split.
    + change (En nv 1 d :: Xb ++ X) with ([En nv 1 d] ++ Xb ++ X). rewrite !pairs_app, E2, F2. reflexivity.
    + constructor; [cbn; lia|]. apply Forall_app. auto.
Qed.

(** Whatever is generated, deferred, replayed and filled in, what is printed is exactly the lines meant, in order. *)
Theorem c29_deferred_output (show : Z -> list Z) (p : prog) (lv : Z) : holes_ok lv p ->
  exists g, run [] p (GS [] lv) = Some g /\ nest g = fst (sem [] lv p) /\
            print_glo_decls show g = lines show (snd (sem [] lv p)).
Proof.
  intros H. destruct (run_ok p [] [] [] lv) as (X & E1 & E2 & _); [constructor|exact H|].
  exists (GS X (fst (sem [] lv p))). split; [exact E1|]. split; [reflexivity|]. rewrite <- E2.
  unfold print_glo_decls, lines, pairs. cbn [decls]. clear. induction X as [|x X IH]; cbn [flat_map filter]; [reflexivity|].
  destruct (act x =? 1); cbn [andb map flat_map fst snd]; [|exact IH]. rewrite IH. destruct (dec x =? 0); reflexivity.
Qed.
(** In particular a piece set aside and never used leaves no trace. *)
Theorem c29_undone_no_trace (show : Z -> list Z) (b : prog) (lv : Z) : holes_ok lv b ->
  exists g, run [] (Defer b Done) (GS [] lv) = Some g /\ print_glo_decls show g = [].
Proof.
  intros H. destruct (c29_deferred_output show (Defer b Done) lv) as (g & E & _ & P); [cbn; auto|]. exists g. split; [exact E|].
  rewrite P. cbn [sem]. now destruct (sem [] lv b).
Qed.
Lemma F2_impl {A B} (P Q : A -> B -> Prop) l m : (forall a b, P a b -> Q a b) -> Forall2 P l m -> Forall2 Q l m.
Proof. intros H. induction 1; constructor; auto. Qed.
Lemma built_zero cm s l : built cm s l -> In (0, DEmpty) l.
Proof. induction 1; try (right; assumption). left. reflexivity. Qed.
(** Inline replay: the pieces set aside become one text, the pieces in order, each followed by "; ". *)
Definition inl (ds : list doc) : doc :=
  match ds with
  | [] => DEmpty
  | d :: r => DCat [fold_left (fun a b => DCat [a; DStr [59; 32]; b]) r d; DStr [59; 32]]
  end.
Theorem c29_inline (cm : Z -> Z) (sep : Z) (g : gst) (start end_ : nat) (s : tp) (l : list (Z * doc)) (ds : list doc) (s' : tp) (t : Z) :
  built cm s l -> at_ cm sep [59; 32; 0] ->
  Forall2 (fun x d => In (snd x, d) l /\ d <> DEmpty) (pairs 0 (slice (decls g) start end_)) ds ->
  replay_glo_decls_inline sep start end_ g s = Some (s', t) ->
  exists l', built cm s' l' /\ In (t, inl ds) l' /\ incl l l'.
Proof.
  intros B At F R. unfold replay_glo_decls_inline in R. unfold slice in F.
  set (es := firstn (end_ - start) (skipn start (decls g))) in *. clearbody es.
  assert (A2 : at_ cm sep ([59; 32] ++ [0])) by exact At.
  assert (G2 : Forall (fun c => 1 <= c <= 255) [59; 32]) by (repeat constructor; lia).
  assert (L : forall es ds s l res d0, built cm s l -> In (res, d0) l -> d0 <> DEmpty ->
    Forall2 (fun x d => In (snd x, d) l /\ d <> DEmpty) (pairs 0 es) ds -> forall s' t, inline_loop sep es res s = Some (s', t) ->
    exists l', built cm s' l' /\ In (t, fold_left (fun a b => DCat [a; DStr [59; 32]; b]) ds d0) l' /\ incl l l' /\
               fold_left (fun a b => DCat [a; DStr [59; 32]; b]) ds d0 <> DEmpty).
  { clear - A2 G2. induction es as [|x es IH]; intros ds s l res d0 B Hr Hd F s' t E; cbn [inline_loop] in E.
    - injection E as <- <-. cbn in F. inversion F; subst. exists l. cbn. split; [exact B|]. split; [exact Hr|]. split; [apply incl_refl|exact Hd].
    - unfold pairs in F. cbn [filter] in F. destruct (act x =? 0).
      + cbn [map] in F. inversion F as [|y d ? ds' [Hx Hd'] F']; subst. cbn [snd] in Hx.
        destruct (wrap_str_lit sep s) as [[s1 w]|] eqn:Ew; [|discriminate].
        destruct (concatenate_strings_with res (dec x) w s1) as [[s2 res2]|] eqn:Ec; [|discriminate].
        pose proof (b_lit cm s l sep [59; 32] s1 w B A2 G2 Ew) as B1.
        pose proof (b_join cm s1 _ res d0 (dec x) d w (DStr [59; 32]) s2 res2 B1 (or_intror Hr) (or_intror Hx) (or_introl eq_refl) Ec) as B2.
        assert (J : djoin d0 d (DStr [59; 32]) = DCat [d0; DStr [59; 32]; d]) by (destruct d0; try congruence; destruct d; try congruence; reflexivity).
        rewrite J in B2.
        destruct (IH ds' _ _ res2 (DCat [d0; DStr [59; 32]; d]) B2 (or_introl eq_refl)) with (s' := s') (t := t) as (l' & C1 & C2 & C3 & C4); auto; try discriminate.
        { eapply F2_impl; [|exact F']. intros a b [P Q]. split; [right; right; exact P|exact Q]. }
        exists l'. split; [exact C1|]. split; [exact C2|]. split; [|exact C4]. intros z Hz. apply C3. right. right. exact Hz.
      + eapply IH; eauto. }
  assert (L0 : forall es ds s l, built cm s l ->
    Forall2 (fun x d => In (snd x, d) l /\ d <> DEmpty) (pairs 0 es) ds -> forall s' t, inline_loop sep es 0 s = Some (s', t) ->
    exists l', built cm s' l' /\ incl l l' /\
      match ds with [] => t = 0 | d :: r => In (t, fold_left (fun a b => DCat [a; DStr [59; 32]; b]) r d) l' /\
        fold_left (fun a b => DCat [a; DStr [59; 32]; b]) r d <> DEmpty end).
  { clear - A2 G2 L. induction es as [|x es IH]; intros ds s l B F s' t E; cbn [inline_loop] in E.
    - injection E as <- <-. cbn in F. inversion F; subst. exists l. split; [exact B|]. split; [apply incl_refl|reflexivity].
    - unfold pairs in F. cbn [filter] in F. destruct (act x =? 0).
      + cbn [map] in F. inversion F as [|y d ? ds' [Hx Hd'] F']; subst. cbn [snd] in Hx.
        destruct (wrap_str_lit sep s) as [[s1 w]|] eqn:Ew; [|discriminate].
        cbn [concatenate_strings_with Z.eqb] in E. unfold concatenate_strings_with in E. cbn [Z.eqb] in E.
        pose proof (b_lit cm s l sep [59; 32] s1 w B A2 G2 Ew) as B1.
        destruct (L es ds' _ _ (dec x) d B1 (or_intror Hx) Hd') with (s' := s') (t := t) as (l' & C1 & C2 & C3 & C4); auto.
        { eapply F2_impl; [|exact F']. intros a b [P Q]. split; [right; exact P|exact Q]. }
        exists l'. split; [exact C1|]. split; [|auto]. intros z Hz. apply C3. right. exact Hz.
      + eapply IH; eauto. }
  destruct (inline_loop sep es 0 s) as [[s1 res]|] eqn:E; [|discriminate].
  destruct (L0 es ds s l B F s1 res E) as (l' & C1 & C2 & C3).
  destruct ds as [|d r].
  - subst res. cbn [Z.eqb] in R. injection R as <- <-. exists l'. split; [exact C1|]. split; [eapply built_zero; exact C1|exact C2].
  - destruct C3 as [C3 C4]. destruct (Z.eqb_spec res 0) as [->|Hn].
    { exfalso. apply C4. pose proof (proj2 (built_rep _ _ _ C1) _ _ C3) as Rp. inversion Rp; try lia. reflexivity. }
    destruct (wrap_str_lit sep s1) as [[s2 w]|] eqn:Ew; [|discriminate].
    pose proof (b_lit cm s1 l' sep [59; 32] s2 w C1 A2 G2 Ew) as B1.
    pose proof (b_cat2 cm s2 _ res _ w (DStr [59; 32]) s' t B1 (or_intror C3) (or_introl eq_refl) R) as B2.
    eexists. split; [exact B2|]. split; [left; reflexivity|]. intros z Hz. right. right. auto.
Qed.

(** A block whose lines were all undone twice counts as non-empty, although it prints nothing (so no [:] is added
    to it and the shell rejects the empty block). *)
Theorem c29_any_active_refuted (show : Z -> list Z) (d lv : Z) : d <> 0 ->
  let g := undo_glo_decls 0 (undo_glo_decls 0 (append_glo_decl d (GS [] lv))) in
  any_active_glo_decls 0 g = true /\ print_glo_decls show g = [].
Proof.
  intros Hd g. split; [|reflexivity]. unfold g, any_active_glo_decls. cbn.
  destruct (Z.eqb_spec d 0); [contradiction|reflexivity].
Qed.
(** Undone at most once, it says whether the block prints a line. *)
Theorem c29_any_active (show : Z -> list Z) (g : gst) (start : nat) :
  Forall (fun x => act x = 0 \/ act x = 1) (skipn start (decls g)) ->
  any_active_glo_decls start g = true <->
  print_glo_decls show (GS (skipn start (decls g)) (nest g)) <> [].
Proof.
  unfold any_active_glo_decls, print_glo_decls. cbn [decls]. induction 1 as [|x l Hx _ IH]; cbn [existsb flat_map]; [split; congruence|].
  destruct Hx as [-> | ->]; cbn [Z.eqb negb andb orb app]; [exact IH|].
  destruct (dec x =? 0); cbn [negb andb orb app]; [exact IH|]. split; [|reflexivity]. intros _ E.
  assert (In 10 []) as []. rewrite <- E. apply in_or_app. left. apply in_or_app. right. apply in_or_app. right. now left.
Qed.

(** A for loop: the increment is compiled first, set aside, and placed at a [continue] and at the end of the body;
    a line is filled in afterwards. *)
Example c29_example :
  let p := Nest 1 (Hole (Defer (Emit 50 Done) (Emit 10 (Nest 1 (Emit 11 (Use 0 true (Emit 12 (Use 0 true (Nest (-1) (Emit 13 Done)))))))))
             99 Done) in
  holes_ok 0 p /\ snd (sem [] 0 p) = [(1, 99); (1, 10); (2, 11); (2, 50); (2, 12); (2, 50); (1, 13)] /\
  option_map (print_glo_decls (fun t => [t])) (run [] p (GS [] 0)) =
    Some [32; 32; 99; 10; 32; 32; 10; 10; 32; 32; 32; 32; 11; 10; 32; 32; 32; 32; 50; 10; 32; 32; 32; 32; 12; 10;
          32; 32; 32; 32; 50; 10; 32; 32; 13; 10].
Proof. cbn. repeat split; lia. Qed.
