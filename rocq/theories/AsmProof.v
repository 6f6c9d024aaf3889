(** * One-pass assembly with back-patching produces what the two-pass assembler specifies *)
From Coq Require Import ZArith List Lia Bool.
From Verif Require Import Base Asm.
Import ListNotations.
Open Scope Z_scope.

(** ** Writing bytes *)
Fixpoint wr (c : Z -> Z) (p : Z) (bs : list Z) : Z -> Z :=
  match bs with [] => c | b :: r => wr (upd c p b) (p + 1) r end.
Definition zlen {A} (l : list A) : Z := Z.of_nat (length l).
Lemma zlen_cons {A} (a : A) l : zlen (a :: l) = 1 + zlen l.
Proof. unfold zlen. cbn [length]. lia. Qed.
Lemma zlen_app {A} (a b : list A) : zlen (a ++ b) = zlen a + zlen b.
Proof. unfold zlen. rewrite app_length. lia. Qed.
Lemma zlen_nonneg {A} (l : list A) : 0 <= zlen l. Proof. unfold zlen. lia. Qed.

Lemma wr_app c p a b : wr c p (a ++ b) = wr (wr c p a) (p + zlen a) b.
Proof.
  revert c p. induction a as [|x a IH]; intros c p; cbn [wr app].
  - change (zlen (@nil Z)) with 0. now rewrite Z.add_0_r.
  - rewrite IH, zlen_cons. f_equal. lia.
Qed.

(** [at_ c p bs]: the cells from [p] on hold [bs]. *)
Fixpoint at_ (c : Z -> Z) (p : Z) (bs : list Z) : Prop :=
  match bs with [] => True | b :: r => c p = b /\ at_ c (p + 1) r end.

Lemma at_ext c c' p bs : (forall x, p <= x < p + zlen bs -> c' x = c x) -> at_ c p bs -> at_ c' p bs.
Proof.
  revert p. induction bs as [|b r IH]; intros p H; cbn [at_]; [auto|]. rewrite zlen_cons in H.
  pose proof (zlen_nonneg r). intros [H1 H2]. split.
  - rewrite H; [exact H1|lia].
  - apply IH; [|exact H2]. intros. apply H. lia.
Qed.

Lemma wr_below c p bs x : x < p -> wr c p bs x = c x.
Proof.
  revert c p. induction bs as [|b r IH]; intros c p H; cbn [wr]; [reflexivity|].
  rewrite IH by lia. apply upd_other. lia.
Qed.
Lemma wr_above c p bs x : p + zlen bs <= x -> wr c p bs x = c x.
Proof.
  revert c p. induction bs as [|b r IH]; intros c p H; cbn [wr]; [reflexivity|]. rewrite zlen_cons in H.
  pose proof (zlen_nonneg r). rewrite IH by lia. apply upd_other. lia.
Qed.
Lemma wr_out c p bs x : x < p \/ p + zlen bs <= x -> wr c p bs x = c x.
Proof. intros [H|H]; [now apply wr_below|now apply wr_above]. Qed.
Lemma wr_at c p bs : at_ (wr c p bs) p bs.
Proof.
  revert c p. induction bs as [|b r IH]; intros c p; cbn [wr at_]; [exact I|]. split; [|apply IH].
  rewrite wr_below by lia. apply upd_same.
Qed.
Lemma at_app c p a b : at_ c p (a ++ b) <-> at_ c p a /\ at_ c (p + zlen a) b.
Proof.
  revert p. induction a as [|x a IH]; intros p; cbn [at_ app].
  - change (zlen (@nil Z)) with 0. rewrite Z.add_0_r. tauto.
  - rewrite IH, zlen_cons. replace (p + (1 + zlen a)) with (p + 1 + zlen a) by lia. tauto.
Qed.
Lemma at_nth c p bs : at_ c p bs -> forall i, 0 <= i < zlen bs -> c (p + i) = nth (Z.to_nat i) bs 0.
Proof.
  revert p. induction bs as [|b r IH]; intros p H i Hi.
  - change (zlen (@nil Z)) with 0 in Hi. lia.
  - destruct H as [H1 H2]. rewrite zlen_cons in Hi. destruct (Z.eq_dec i 0) as [->|Hn].
    + rewrite Z.add_0_r. exact H1.
    + replace (Z.to_nat i) with (S (Z.to_nat (i - 1))) by lia. cbn [nth].
      rewrite <- (IH (p + 1) H2) by lia. f_equal. lia.
Qed.

(** ** The emitters append bytes *)
Definition app_code (s : ast_st) (bs : list Z) : ast_st := with_code s (wr (code s) (ca s) bs) (ca s + zlen bs).

Lemma land255 a : Z.land a 255 = a mod 256.
Proof. change 255 with (Z.ones 8). rewrite Z.land_ones by lia. reflexivity. Qed.

Lemma app_code_app s a b : app_code (app_code s a) b = app_code s (a ++ b).
Proof.
  unfold app_code, with_code. cbn [code ca gl tl tfs cfs]. rewrite wr_app, zlen_app.
  replace (ca s + zlen a + zlen b) with (ca s + (zlen a + zlen b)) by lia. reflexivity.
Qed.

Lemma emit_i8_ok a s : ca s + 1 <= MAX_CODE_SIZE -> emit_i8 a s = Some (app_code s [a mod 256]).
Proof.
  intros H. unfold emit_i8. destruct (Z.leb_spec MAX_CODE_SIZE (ca s)); [lia|].
  unfold app_code. cbn [wr]. rewrite land255. reflexivity.
Qed.
Lemma ca_app s bs : ca (app_code s bs) = ca s + zlen bs. Proof. reflexivity. Qed.
Lemma emit_2_i8_ok a b s : ca s + 2 <= MAX_CODE_SIZE -> emit_2_i8 a b s = Some (app_code s [a mod 256; b mod 256]).
Proof.
  intros H. unfold emit_2_i8. rewrite emit_i8_ok by lia. cbn [bind]. rewrite emit_i8_ok.
  - now rewrite app_code_app.
  - rewrite ca_app. unfold zlen. cbn [length]. lia.
Qed.
Lemma emit_i32_ok n s : ca s + 4 <= MAX_CODE_SIZE -> emit_i32_le n s = Some (app_code s (le32 n)).
Proof.
  intros H. unfold emit_i32_le, emit_4_i8. rewrite emit_2_i8_ok by lia. cbn [bind]. rewrite emit_2_i8_ok.
  - rewrite app_code_app. cbn [app]. rewrite !Z.shiftr_div_pow2 by lia. reflexivity.
  - rewrite ca_app. unfold zlen. cbn [length]. lia.
Qed.

Definition grow_bytes (W words : Z) : list Z := (if W =? 8 then [72] else []) ++ [129; 196] ++ le32 (- words * W).
Definition jmp_bytes (n : Z) : list Z := 233 :: le32 n.
Lemma zlen_le32 n : zlen (le32 n) = 4. Proof. reflexivity. Qed.
Lemma zlen_jmp n : zlen (jmp_bytes n) = 5. Proof. reflexivity. Qed.
Lemma zlen_grow W n : zlen (grow_bytes W n) = goto_size W - 5.
Proof. unfold grow_bytes, goto_size. destruct (W =? 8); reflexivity. Qed.
Lemma goto_size_pos W : 11 <= goto_size W <= 12. Proof. unfold goto_size. destruct (W =? 8); lia. Qed.

Lemma grow_stack_ok W words s : ca s + 7 <= MAX_CODE_SIZE ->
  grow_stack W words s = Some (app_code s (grow_bytes W words)).
Proof.
  intros H. unfold grow_stack, add_sp_imm, grow_bytes. destruct (W =? 8).
  - rewrite emit_i8_ok by lia. cbn [bind]. rewrite emit_2_i8_ok by (rewrite ca_app; unfold zlen; cbn [length]; lia).
    cbn [bind]. rewrite emit_i32_ok by (rewrite !ca_app; unfold zlen; cbn [length]; lia).
    now rewrite !app_code_app.
  - cbn [bind]. rewrite emit_2_i8_ok by lia.
    cbn [bind]. rewrite emit_i32_ok by (rewrite !ca_app; unfold zlen; cbn [length]; lia).
    now rewrite !app_code_app.
Qed.
Lemma jump_rel_ok n s : ca s + 5 <= MAX_CODE_SIZE -> jump_rel n s = Some (app_code s (jmp_bytes n)).
Proof.
  intros H. unfold jump_rel. rewrite emit_i8_ok by lia. cbn [bind].
  rewrite emit_i32_ok by (rewrite !ca_app; unfold zlen; cbn [length]; lia). now rewrite app_code_app.
Qed.
Lemma goto_bytes_split W g d : goto_bytes W g d = grow_bytes W g ++ jmp_bytes d.
Proof. unfold goto_bytes, grow_bytes, jmp_bytes. now rewrite <- !app_assoc. Qed.

(** ** Ghost history: the placed operations, latest first *)
Definition placed := (Z * Z * aop)%type. (* position, frame size, operation *)
Fixpoint tower (W n : Z) (G : list placed) : Prop :=
  match G with [] => n = 0 | (p, _, o) :: r => n = p + op_size W o /\ tower W p r end.
Fixpoint dfind (G : list placed) (l : Z) : option Z :=
  match G with
  | [] => None
  | (p, _, o) :: r => match o with ODef y => if y =? l then Some p else dfind r l | _ => dfind r l end
  end.
Fixpoint gfind (G : list placed) (l : Z) : option (Z * Z) :=
  match G with
  | [] => None
  | (p, f, o) :: r => match o with ODefGoto y => if y =? l then Some (p, f) else gfind r l | _ => gfind r l end
  end.
Fixpoint uses (G : list placed) (l : Z) : list Z :=
  match G with
  | [] => []
  | (p, _, o) :: r => match o with OUse y => if y =? l then p :: uses r l else uses r l | _ => uses r l end
  end.
Fixpoint guses (G : list placed) (l : Z) : list (Z * Z) :=
  match G with
  | [] => []
  | (p, f, o) :: r => match o with OGoto y => if y =? l then (p, f) :: guses r l else guses r l | _ => guses r l end
  end.

Fixpoint chain (c : Z -> Z) (a : Z) (us : list Z) : Prop :=
  match us with [] => a = 0 | p :: r => a = p + 4 /\ chain c (c (p + 3)) r end.
Fixpoint gchain (k : Z) (c : Z -> Z) (a : Z) (us : list (Z * Z)) : Prop :=
  match us with
  | [] => a = 0
  | (p, f) :: r => a = p + k /\ c (p + k - 2) = f /\ c (p + k - 3) = p /\ gchain k c (c (p + k - 1)) r
  end.

Definition good (W : Z) (lab : Z -> option Z) (glab : Z -> option (Z * Z)) (c : Z -> Z) (e : placed) : Prop :=
  let '(p, f, o) := e in at_ c p (op_bytes W lab glab p f o).

Record Inv (W : Z) (G : list placed) (s : ast_st) : Prop := {
  i_tower : tower W (ca s) G;
  i_gl : forall l, match dfind G l with
                   | Some a => gl s l = - a /\ 0 < a
                   | None => chain (code s) (gl s l) (uses G l)
                   end;
  i_tl : forall l, match gfind G l with
                   | Some (a, f) => tl s l = - a /\ 0 < a /\ tfs s l = f
                   | None => gchain (goto_size W) (code s) (tl s l) (guses G l)
                   end;
  i_good : forall e, In e G -> good W (dfind G) (gfind G) (code s) e }.

Lemma op_size_nonneg W o : 0 <= op_size W o.
Proof. pose proof (goto_size_pos W). destruct o; cbn [op_size]; lia. Qed.
Lemma tower_nonneg W n G : tower W n G -> 0 <= n.
Proof.
  revert n. induction G as [|[[p f] o] r IH]; cbn [tower]; [lia|]. intros n [-> H].
  pose proof (op_size_nonneg W o). pose proof (IH _ H). lia.
Qed.
Lemma tower_in W n G p f o : tower W n G -> In (p, f, o) G -> 0 <= p /\ p + op_size W o <= n.
Proof.
  revert n. induction G as [|[[p' f'] o'] r IH]; cbn [tower In]; [tauto|]. intros n [-> H] [E|Hin].
  - injection E as -> -> ->. pose proof (tower_nonneg _ _ _ H). lia.
  - destruct (IH _ H Hin). pose proof (op_size_nonneg W o'). lia.
Qed.
Lemma tower_disj W n G e1 e2 : tower W n G -> In e1 G -> In e2 G ->
  e1 = e2 \/ fst (fst e1) + op_size W (snd e1) <= fst (fst e2) \/ fst (fst e2) + op_size W (snd e2) <= fst (fst e1).
Proof.
  revert n. induction G as [|[[p' f'] o'] r IH]; cbn [tower In]; [tauto|]. intros n [-> H] [<-|H1] [<-|H2].
  - auto.
  - right. right. destruct e2 as [[p2 f2] o2]. cbn [fst snd]. destruct (tower_in _ _ _ _ _ _ H H2). lia.
  - right. left. destruct e1 as [[p2 f2] o2]. cbn [fst snd]. destruct (tower_in _ _ _ _ _ _ H H1). lia.
  - eapply IH; eauto.
Qed.
Lemma uses_in G l p : In p (uses G l) <-> exists f, In (p, f, OUse l) G.
Proof.
  induction G as [|[[p' f'] o'] r IH]; cbn [uses In]; [firstorder|].
  assert (HH : (exists f, (p', f', o') = (p, f, OUse l) \/ In (p, f, OUse l) r) <->
              (p' = p /\ o' = OUse l) \/ In p (uses r l)).
  { rewrite IH. split.
    - intros (f & [E|E]); [injection E as -> -> ->; auto|eauto].
    - intros [[-> ->]|(f & E)]; eauto. }
  rewrite HH. destruct o'; cbn [In]; try (split; [auto|intros [[_ E]|E]; [discriminate|exact E]]).
  destruct (Z.eqb_spec l0 l) as [->|Hn]; cbn [In].
  - firstorder.
  - split; [auto|]. intros [[_ E]|E]; [congruence|exact E].
Qed.
Lemma guses_in G l p f : In (p, f) (guses G l) <-> In (p, f, OGoto l) G.
Proof.
  induction G as [|[[p' f'] o'] r IH]; cbn [guses In]; [tauto|].
  assert (HH : ((p', f', o') = (p, f, OGoto l) \/ In (p, f, OGoto l) r) <->
              (p' = p /\ f' = f /\ o' = OGoto l) \/ In (p, f) (guses r l)).
  { rewrite IH. split.
    - intros [E|E]; [injection E as -> -> ->; auto|eauto].
    - intros [(-> & -> & ->)|E]; eauto. }
  rewrite HH. destruct o'; cbn [In]; try (split; [auto|intros [(_ & _ & E)|E]; [discriminate|exact E]]).
  destruct (Z.eqb_spec l0 l) as [->|Hn]; cbn [In].
  - split; [intros [E|E]; [injection E as -> ->; auto|auto]|]. intros [(-> & -> & _)|E]; auto.
  - split; [auto|]. intros [(_ & _ & E)|E]; [congruence|exact E].
Qed.

Lemma chain_ext c c' us : (forall p, In p us -> c' (p + 3) = c (p + 3)) -> forall a, chain c a us -> chain c' a us.
Proof.
  induction us as [|p r IH]; intros H a; cbn [chain]; [auto|]. intros [-> Hc]. split; [reflexivity|].
  rewrite H by (now left). apply IH; [|exact Hc]. intros. apply H. now right.
Qed.
Lemma gchain_ext k c c' us : 3 <= k -> (forall p f, In (p, f) us -> forall x, p + k - 3 <= x < p + k -> c' x = c x) ->
  forall a, gchain k c a us -> gchain k c' a us.
Proof.
  intros Hk. induction us as [|[p f] r IH]; intros H a; cbn [gchain]; [auto|]. intros (-> & H1 & H2 & Hc).
  assert (forall x, p + k - 3 <= x < p + k -> c' x = c x) as Hp by (intros; eapply H; [now left|lia]).
  rewrite !Hp by lia. repeat split; auto. apply IH; [|exact Hc]. intros q g Hin. apply (H q g). now right.
Qed.

Lemma zlen_op_bytes W lab glab p f o : zlen (op_bytes W lab glab p f o) <= op_size W o.
Proof.
  pose proof (goto_size_pos W). destruct o; cbn [op_bytes op_size]; try (change (zlen (@nil Z)) with 0; lia).
  - reflexivity.
  - destruct (lab l); [rewrite zlen_le32; lia|change (zlen (@nil Z)) with 0; lia].
  - destruct (glab l) as [[a g]|]; [|change (zlen (@nil Z)) with 0; lia].
    rewrite goto_bytes_split, zlen_app, zlen_grow, zlen_jmp. lia.
Qed.

Lemma good_ext W lab glab c c' p f o :
  (forall x, p <= x < p + op_size W o -> c' x = c x) -> good W lab glab c (p, f, o) -> good W lab glab c' (p, f, o).
Proof.
  intros H. unfold good. apply at_ext. intros x Hx. apply H.
  pose proof (zlen_op_bytes W lab glab p f o). lia.
Qed.

(** ** Appending an operation that defines nothing *)
Section Append.
Variables (W : Z) (G : list placed) (s s' : ast_st) (o : aop).
Hypothesis HI : Inv W G s.
Hypothesis Hbelow : forall x, x < ca s -> code s' x = code s x.
Hypothesis Hnd : match o with ODef _ | ODefGoto _ => False | _ => True end.

Lemma dfind_app_nd e l : snd e = o -> dfind (e :: G) l = dfind G l.
Proof. destruct e as [[p f] o']. cbn [snd dfind]. intros ->. now destruct o. Qed.
Lemma gfind_app_nd e l : snd e = o -> gfind (e :: G) l = gfind G l.
Proof. destruct e as [[p f] o']. cbn [snd gfind]. intros ->. now destruct o. Qed.

Lemma append_good : good W (dfind G) (gfind G) (code s') (ca s, cfs s, o) ->
  forall e, In e ((ca s, cfs s, o) :: G) ->
  good W (dfind ((ca s, cfs s, o) :: G)) (gfind ((ca s, cfs s, o) :: G)) (code s') e.
Proof.
  intros Hg [[p f] q] Hin.
  assert (E : op_bytes W (dfind ((ca s, cfs s, o) :: G)) (gfind ((ca s, cfs s, o) :: G)) p f q =
              op_bytes W (dfind G) (gfind G) p f q).
  { destruct q; cbn [op_bytes]; try reflexivity; [rewrite dfind_app_nd by reflexivity|rewrite gfind_app_nd by reflexivity]; reflexivity. }
  unfold good. rewrite E. destruct Hin as [Eq|Hin].
  - injection Eq as <- <- <-. exact Hg.
  - pose proof (i_good _ _ _ HI _ Hin) as H0. unfold good in H0. eapply at_ext; [|exact H0].
    intros x Hx. apply Hbelow. pose proof (zlen_op_bytes W (dfind G) (gfind G) p f q).
    destruct (tower_in _ _ _ _ _ _ (i_tower _ _ _ HI) Hin). lia.
Qed.
Lemma old_chain l : chain (code s) (gl s l) (uses G l) -> chain (code s') (gl s l) (uses G l).
Proof.
  apply chain_ext. intros p Hp. apply uses_in in Hp. destruct Hp as [f Hp].
  destruct (tower_in _ _ _ _ _ _ (i_tower _ _ _ HI) Hp). apply Hbelow. cbn [op_size] in *. lia.
Qed.
Lemma old_gchain l : gchain (goto_size W) (code s) (tl s l) (guses G l) ->
  gchain (goto_size W) (code s') (tl s l) (guses G l).
Proof.
  pose proof (goto_size_pos W). apply gchain_ext; [lia|]. intros p f Hp x Hx. apply guses_in in Hp.
  destruct (tower_in _ _ _ _ _ _ (i_tower _ _ _ HI) Hp). apply Hbelow. cbn [op_size] in *. lia.
Qed.
End Append.

Lemma step_byte W G s b : Inv W G s -> ca s + 1 <= MAX_CODE_SIZE ->
  exists s', do_op W s (OByte b) = Some s' /\ Inv W ((ca s, cfs s, OByte b) :: G) s' /\ cfs s' = cfs s.
Proof.
  intros HI Hm. cbn [do_op]. rewrite emit_i8_ok by exact Hm. eexists. split; [reflexivity|]. split; [|reflexivity].
  assert (Hb : forall x, x < ca s -> code (app_code s [b mod 256]) x = code s x).
  { intros x Hx. apply wr_below. exact Hx. }
  constructor.
  - cbn [tower]. split; [reflexivity|apply HI].
  - intros l. cbn [dfind uses]. pose proof (i_gl _ _ _ HI l) as H. destruct (dfind G l); [exact H|].
    exact (old_chain W G s _ HI Hb l H).
  - intros l. cbn [gfind guses]. pose proof (i_tl _ _ _ HI l) as H. destruct (gfind G l); [exact H|].
    exact (old_gchain W G s _ HI Hb l H).
  - apply (append_good W G s _ (OByte b) HI Hb I). unfold good. cbn [op_bytes]. apply wr_at.
Qed.

Lemma step_frame W G s n : Inv W G s ->
  exists s', do_op W s (OFrame n) = Some s' /\ Inv W ((ca s, cfs s, OFrame n) :: G) s' /\ cfs s' = n.
Proof.
  intros HI. cbn [do_op]. eexists. split; [reflexivity|]. split; [|reflexivity].
  constructor; cbn [ca code gl tl tfs cfs].
  - cbn [tower op_size]. split; [lia|apply HI].
  - intros l. cbn [dfind uses]. apply HI.
  - intros l. cbn [gfind guses]. apply HI.
  - intros [[p f] q] [E|Hin]; [injection E as <- <- <-; exact I|].
    pose proof (i_good _ _ _ HI _ Hin) as H0. destruct q; exact H0.
Qed.

Lemma step_use W G s l : Inv W G s -> ca s + 4 <= MAX_CODE_SIZE ->
  exists s', do_op W s (OUse l) = Some s' /\ Inv W ((ca s, cfs s, OUse l) :: G) s' /\ cfs s' = cfs s.
Proof.
  intros HI Hm. cbn [do_op]. unfold use_label. pose proof (i_gl _ _ _ HI l) as Hl.
  pose proof (tower_nonneg _ _ _ (i_tower _ _ _ HI)) as H0.
  destruct (dfind G l) as [a|] eqn:El.
  - destruct Hl as [Hl Ha]. rewrite Hl. destruct (Z.ltb_spec (- a) 0); [|lia].
    rewrite emit_i32_ok by exact Hm. eexists. split; [reflexivity|]. split; [|reflexivity].
    rewrite Z.opp_involutive.
    set (s' := app_code s (le32 (a - (ca s + 4)))).
    assert (Hb : forall x, x < ca s -> code s' x = code s x) by (intros; now apply wr_below).
    constructor.
    + cbn [tower]. split; [reflexivity|apply HI].
    + intros m. cbn [dfind uses]. pose proof (i_gl _ _ _ HI m) as H1.
      destruct (Z.eqb_spec l m) as [<-|Hn].
      * rewrite El in *. exact H1.
      * destruct (dfind G m); [exact H1|]. exact (old_chain W G s s' HI Hb _ H1).
    + intros m. cbn [gfind guses]. pose proof (i_tl _ _ _ HI m) as H1.
      destruct (gfind G m); [exact H1|]. exact (old_gchain W G s s' HI Hb _ H1).
    + apply (append_good W G s s' (OUse l) HI Hb I). unfold good. cbn [op_bytes]. rewrite El. apply wr_at.
  - destruct (Z.ltb_spec (gl s l) 0) as [Hneg|_].
    { exfalso. destruct (uses G l) as [|p r] eqn:Eu; cbn [chain] in Hl; [lia|].
      destruct Hl as [Hl _]. assert (Hin : In p (uses G l)) by (rewrite Eu; now left).
      apply uses_in in Hin. destruct Hin as [f Hin].
      destruct (tower_in _ _ _ _ _ _ (i_tower _ _ _ HI) Hin). lia. }
    rewrite emit_i32_ok by exact Hm. cbn [bind]. eexists. split; [reflexivity|]. split; [|reflexivity].
    set (s1 := app_code s (le32 0)).
    set (s' := AS _ _ _ _ _ _).
    assert (Hc1 : ca s1 = ca s + 4) by reflexivity.
    assert (Hb : forall x, x < ca s -> code s' x = code s x).
    { intros x Hx. unfold s'. cbn [code]. rewrite upd_other by lia. apply wr_below. exact Hx. }
    constructor.
    + cbn [tower]. split; [reflexivity|apply HI].
    + intros m. cbn [dfind uses]. pose proof (i_gl _ _ _ HI m) as H1.
      destruct (Z.eqb_spec l m) as [<-|Hn].
      * rewrite El. unfold s'. cbn [gl code]. rewrite upd_same. cbn [chain]. split; [exact Hc1|].
        rewrite El in H1. replace (ca s + 3) with (ca s1 - 1) by lia. rewrite upd_same.
        exact (old_chain W G s s' HI Hb _ H1).
      * assert (gl s' m = gl s m) as -> by (unfold s'; cbn [gl]; rewrite upd_other by auto; reflexivity).
        destruct (dfind G m); [exact H1|]. exact (old_chain W G s s' HI Hb _ H1).
    + intros m. cbn [gfind guses]. pose proof (i_tl _ _ _ HI m) as H1.
      change (tl s' m) with (tl s m). change (tfs s' m) with (tfs s m).
      destruct (gfind G m); [exact H1|]. exact (old_gchain W G s s' HI Hb _ H1).
    + apply (append_good W G s s' (OUse l) HI Hb I). unfold good. cbn [op_bytes]. rewrite El. exact I.
Qed.

Lemma step_goto W G s l : Inv W G s -> ca s + goto_size W <= MAX_CODE_SIZE ->
  exists s', do_op W s (OGoto l) = Some s' /\ Inv W ((ca s, cfs s, OGoto l) :: G) s' /\ cfs s' = cfs s.
Proof.
  intros HI Hm. cbn [do_op]. unfold jump_to_goto_label. pose proof (i_tl _ _ _ HI l) as Hl.
  pose proof (tower_nonneg _ _ _ (i_tower _ _ _ HI)) as H0. pose proof (goto_size_pos W) as Hgs.
  destruct (gfind G l) as [[a g]|] eqn:El.
  - destruct Hl as (Hl & Ha & Hg). rewrite Hl. destruct (Z.ltb_spec (- a) 0); [|lia].
    rewrite grow_stack_ok by lia. cbn [bind].
    set (s1 := app_code s _). assert (Hs1 : ca s1 = ca s + (goto_size W - 5)) by (unfold s1; rewrite ca_app, zlen_grow; reflexivity).
    rewrite jump_rel_ok by lia. cbn [bind]. set (s2 := app_code s1 _).
    assert (Hs2 : ca s2 = ca s + goto_size W) by (unfold s2; rewrite ca_app, zlen_jmp; lia).
    rewrite jump_rel_ok by (cbn [ca with_code]; lia).
    eexists. split; [reflexivity|]. split; [|reflexivity].
    set (s' := app_code _ _).
    assert (Hb : forall x, x < ca s -> code s' x = code s x).
    { intros x Hx. unfold s'. cbn [code app_code with_code ca]. rewrite wr_below by (cbn [ca with_code]; lia).
      unfold s2. cbn [code app_code with_code ca]. rewrite wr_below by lia. unfold s1.
      cbn [code app_code with_code ca]. apply wr_below. exact Hx. }
    constructor.
    + cbn [tower]. split; [|apply HI]. unfold s'. rewrite ca_app, zlen_jmp. cbn [ca with_code op_size]. lia.
    + intros m. cbn [dfind uses]. pose proof (i_gl _ _ _ HI m) as H1.
      change (gl s' m) with (gl s m).
      destruct (dfind G m); [exact H1|]. exact (old_chain W G s s' HI Hb _ H1).
    + intros m. cbn [gfind guses]. pose proof (i_tl _ _ _ HI m) as H1.
      change (tl s' m) with (tl s m). change (tfs s' m) with (tfs s m).
      destruct (Z.eqb_spec l m) as [<-|Hn].
      * rewrite El in *. exact H1.
      * destruct (gfind G m); [exact H1|]. exact (old_gchain W G s s' HI Hb _ H1).
    + apply (append_good W G s s' (OGoto l) HI Hb I). unfold good. cbn [op_bytes]. rewrite El.
      rewrite goto_bytes_split. apply at_app. split.
      * eapply at_ext with (c := code s1).
        -- intros x Hx. unfold s'. cbn [code app_code with_code ca]. rewrite zlen_grow in Hx.
           rewrite wr_below by lia. unfold s2. cbn [code app_code with_code]. apply wr_below. lia.
        -- unfold s1. cbn [code app_code with_code]. rewrite <- Hg. apply wr_at.
      * rewrite zlen_grow, <- Hs1. unfold s'. cbn [code app_code with_code ca]. rewrite Hs2, Z.opp_involutive.
        apply wr_at.
  - destruct (Z.ltb_spec (tl s l) 0) as [Hneg|_].
    { exfalso. destruct (guses G l) as [|[p f] r] eqn:Eu; cbn [gchain] in Hl; [lia|].
      destruct Hl as [Hl _]. assert (Hin : In (p, f) (guses G l)) by (rewrite Eu; now left).
      apply guses_in in Hin.
      destruct (tower_in _ _ _ _ _ _ (i_tower _ _ _ HI) Hin). lia. }
    rewrite grow_stack_ok by lia. cbn [bind].
    set (s1 := app_code s _). assert (Hs1 : ca s1 = ca s + (goto_size W - 5)) by (unfold s1; rewrite ca_app, zlen_grow; reflexivity).
    rewrite jump_rel_ok by lia. cbn [bind]. set (s2 := app_code s1 _).
    assert (Hs2 : ca s2 = ca s + goto_size W) by (unfold s2; rewrite ca_app, zlen_jmp; lia).
    eexists. split; [reflexivity|]. split; [|reflexivity].
    set (s' := AS _ _ _ _ _ _).
    assert (Hb : forall x, x < ca s -> code s' x = code s x).
    { intros x Hx. unfold s'. cbn [code]. rewrite !upd_other by lia. unfold s2.
      cbn [code app_code with_code]. rewrite wr_below by lia. unfold s1. cbn [code app_code with_code].
      apply wr_below. exact Hx. }
    constructor.
    + cbn [tower]. split; [exact Hs2|apply HI].
    + intros m. cbn [dfind uses]. pose proof (i_gl _ _ _ HI m) as H1.
      change (gl s' m) with (gl s m).
      destruct (dfind G m); [exact H1|]. exact (old_chain W G s s' HI Hb _ H1).
    + intros m. cbn [gfind guses]. pose proof (i_tl _ _ _ HI m) as H1.
      destruct (Z.eqb_spec l m) as [<-|Hn].
      * rewrite El in *. unfold s'. cbn [tl code]. rewrite upd_same. cbn [gchain].
        split; [exact Hs2|]. rewrite <- Hs2.
        split; [rewrite upd_other by lia; rewrite upd_same; reflexivity|].
        split; [now rewrite upd_same|].
        rewrite (upd_other _ _ _ (ca s2 - 1)) by lia. rewrite (upd_other _ _ _ (ca s2 - 1)) by lia.
        rewrite upd_same.
        exact (old_gchain W G s s' HI Hb _ H1).
      * assert (tl s' m = tl s m) as -> by (unfold s'; cbn [tl]; rewrite upd_other by auto; reflexivity).
        change (tfs s' m) with (tfs s m).
        destruct (gfind G m); [exact H1|]. exact (old_gchain W G s s' HI Hb _ H1).
    + apply (append_good W G s s' (OGoto l) HI Hb I). unfold good. cbn [op_bytes]. rewrite El. exact I.
Qed.

(** ** Definitions: the patch loops *)
Fixpoint desc (k n : Z) (us : list Z) : Prop :=
  match us with [] => 0 <= n | p :: r => p + k <= n /\ desc k p r end.
Lemma desc_nonneg k n us : 0 < k -> desc k n us -> 0 <= n.
Proof. revert n. induction us; cbn [desc]; intros; [lia|]. destruct H0 as [? H1]. apply IHus in H1; lia. Qed.
Lemma desc_len k n us : 0 < k -> desc k n us -> zlen us <= n.
Proof.
  revert n. induction us as [|p r IH]; intros n Hk; cbn [desc].
  - change (zlen (@nil Z)) with 0. lia.
  - rewrite zlen_cons. intros [H1 H2]. apply IH in H2; lia.
Qed.
Lemma desc_weaken k n m us : n <= m -> desc k n us -> desc k m us.
Proof. destruct us; cbn [desc]; [lia|]. intros ? [? ?]. split; [lia|auto]. Qed.
Lemma desc_lt k n us p : 0 < k -> desc k n us -> In p us -> p + k <= n.
Proof.
  revert n. induction us as [|q r IH]; intros n Hk Hd Hin; [destruct Hin|]. destruct Hd as [H1 H2].
  destruct Hin as [<-|Hin]; [exact H1|]. pose proof (IH q Hk H2 Hin). lia.
Qed.
Lemma uses_desc W n G l : tower W n G -> desc 4 n (uses G l).
Proof.
  revert n. induction G as [|[[p f] o] r IH]; intros n; cbn [tower uses].
  - intros ->. cbn. lia.
  - intros [-> H]. pose proof (op_size_nonneg W o) as Ho. pose proof (IH _ H) as Hd.
    assert (desc 4 (p + op_size W o) (uses r l)) as Hw by (eapply desc_weaken; [|exact Hd]; lia).
    destruct o; try exact Hw. destruct (l0 =? l); [|exact Hw]. cbn [desc op_size]. split; [lia|exact Hd].
Qed.
Lemma guses_desc W n G l : tower W n G -> desc (goto_size W) n (map fst (guses G l)).
Proof.
  revert n. induction G as [|[[p f] o] r IH]; intros n; cbn [tower guses].
  - intros ->. cbn. lia.
  - intros [-> H]. pose proof (op_size_nonneg W o) as Ho. pose proof (IH _ H) as Hd.
    assert (desc (goto_size W) (p + op_size W o) (map fst (guses r l))) as Hw by (eapply desc_weaken; [|exact Hd]; lia).
    destruct o; try exact Hw. destruct (l0 =? l); [|exact Hw]. cbn [map fst desc op_size]. split; [lia|exact Hd].
Qed.

Lemma patch_ok la us : forall fuel a s n, chain (code s) a us -> desc 4 n us -> n <= MAX_CODE_SIZE ->
  zlen us <= Z.of_nat fuel ->
  exists s', patch_loop fuel la a s = Some s' /\ gl s' = gl s /\ tl s' = tl s /\ tfs s' = tfs s /\ cfs s' = cfs s /\
    (forall p, In p us -> at_ (code s') p (le32 (la - (p + 4)))) /\
    (forall x, (forall p, In p us -> ~ (p <= x < p + 4)) -> code s' x = code s x).
Proof.
  induction us as [|p r IH]; intros fuel a s n Hc Hd Hn Hf.
  - cbn [chain] in Hc. subst a. exists s. destruct fuel; cbn [patch_loop]; change (0 =? 0) with true; cbn iota;
      repeat split; auto; contradiction.
  - cbn [chain] in Hc. destruct Hc as [-> Hc]. cbn [desc] in Hd. destruct Hd as [Hd1 Hd2].
    pose proof (desc_nonneg 4 _ _ ltac:(lia) Hd2). rewrite zlen_cons in Hf. pose proof (zlen_nonneg r).
    destruct fuel as [|fuel]; [lia|]. cbn [patch_loop].
    destruct (Z.eqb_spec (p + 4) 0); [lia|].
    rewrite emit_i32_ok by (cbn [ca with_code]; lia). cbn [bind].
    set (s1 := app_code _ _).
    assert (Hs1 : forall x, ~ (p <= x < p + 4) -> code s1 x = code s x).
    { intros x Hx. unfold s1. cbn [code app_code with_code ca]. apply wr_out. rewrite zlen_le32. lia. }
    destruct (IH fuel (code s (p + 4 - 1)) s1 p) as (s' & E & E1 & E2 & E3 & E4 & P1 & P2).
    { replace (p + 4 - 1) with (p + 3) by lia. eapply chain_ext; [|exact Hc]. intros q Hq.
      apply Hs1. pose proof (desc_lt 4 p r q ltac:(lia) Hd2 Hq). lia. }
    { exact Hd2. } { lia. } { lia. }
    exists s'. split; [exact E|]. rewrite E1, E2, E3, E4. do 4 (split; [reflexivity|]). split.
    + intros q [<-|Hq]; [|apply P1; exact Hq].
      eapply at_ext with (c := code s1).
      * intros x Hx. rewrite zlen_le32 in Hx. apply P2. intros q Hq.
        pose proof (desc_lt 4 p r q ltac:(lia) Hd2 Hq). lia.
      * unfold s1. cbn [code app_code with_code ca]. replace (p + 4 - 4) with p by lia. apply wr_at.
    + intros x Hx. rewrite P2 by (intros q Hq; apply Hx; now right). apply Hs1. apply Hx. now left.
Qed.

Lemma gpatch_ok W la us : forall fuel a s n, gchain (goto_size W) (code s) a us ->
  desc (goto_size W) n (map fst us) -> n <= MAX_CODE_SIZE ->
  zlen us <= Z.of_nat fuel ->
  exists s', gpatch_loop fuel W la a s = Some s' /\ gl s' = gl s /\ tl s' = tl s /\ tfs s' = tfs s /\ cfs s' = cfs s /\
    (forall p f, In (p, f) us -> at_ (code s') p (goto_bytes W (cfs s - f) (la - (p + goto_size W)))) /\
    (forall x, (forall p f, In (p, f) us -> ~ (p <= x < p + goto_size W)) -> code s' x = code s x).
Proof.
  pose proof (goto_size_pos W) as Hgs.
  induction us as [|[p f] r IH]; intros fuel a s n Hc Hd Hn Hf.
  - cbn [gchain] in Hc. subst a. exists s. destruct fuel; cbn [gpatch_loop]; change (0 =? 0) with true; cbn iota;
      repeat split; auto; contradiction.
  - cbn [gchain] in Hc. destruct Hc as (-> & H2 & H3 & Hc). cbn [map fst desc] in Hd. destruct Hd as [Hd1 Hd2].
    pose proof (desc_nonneg (goto_size W) _ _ ltac:(lia) Hd2). rewrite zlen_cons in Hf. pose proof (zlen_nonneg r).
    destruct fuel as [|fuel]; [lia|]. cbn [gpatch_loop].
    destruct (Z.eqb_spec (p + goto_size W) 0); [lia|]. rewrite H2, H3.
    rewrite grow_stack_ok by (cbn [ca with_code]; lia). cbn [bind].
    set (s1 := app_code _ _).
    assert (Hs1 : ca s1 = p + (goto_size W - 5)) by (unfold s1; rewrite ca_app, zlen_grow; reflexivity).
    rewrite jump_rel_ok by lia. cbn [bind]. set (s2 := app_code s1 _).
    assert (Hs2 : ca s2 = p + goto_size W) by (unfold s2; rewrite ca_app, zlen_jmp; lia).
    rewrite jump_rel_ok by (cbn [ca with_code]; lia). cbn [bind].
    set (s3 := app_code _ _).
    assert (Hs3 : forall x, ~ (p <= x < p + goto_size W) -> code s3 x = code s x).
    { intros x Hx. unfold s3. cbn [code app_code with_code ca]. rewrite wr_out by (rewrite zlen_jmp; lia).
      unfold s2. cbn [code app_code with_code]. rewrite wr_out by (rewrite zlen_jmp; lia).
      unfold s1. cbn [code app_code with_code ca]. apply wr_out. rewrite zlen_grow. lia. }
    assert (Hd' : forall q g, In (q, g) r -> q + goto_size W <= p).
    { intros q g Hq. eapply desc_lt; [|exact Hd2|]; [lia|]. change q with (fst (q, g)). now apply in_map. }
    destruct (IH fuel (code s (p + goto_size W - 1)) s3 p) as (s' & E & E1 & E2 & E3 & E4 & P1 & P2).
    { eapply gchain_ext; [lia| |exact Hc]. intros q g Hq x Hx.
      apply Hs3. pose proof (Hd' _ _ Hq). lia. }
    { exact Hd2. } { lia. } { lia. }
    exists s'. split; [exact E|]. rewrite E1, E2, E3, E4. do 4 (split; [reflexivity|]). split.
    + change (cfs s3) with (cfs s) in P1. intros q g [Eq|Hq]; [|apply P1; exact Hq]. injection Eq as <- <-.
      eapply at_ext with (c := code s3).
      * intros x Hx. rewrite goto_bytes_split, zlen_app, zlen_grow, zlen_jmp in Hx. apply P2. intros q g Hq.
        pose proof (Hd' _ _ Hq). lia.
      * rewrite goto_bytes_split. apply at_app. split.
        -- eapply at_ext with (c := code s1).
           ++ intros x Hx. unfold s3. cbn [code app_code with_code ca]. rewrite zlen_grow in Hx.
              rewrite wr_below by lia. unfold s2. cbn [code app_code with_code]. apply wr_below. lia.
           ++ unfold s1. cbn [code app_code with_code ca]. apply wr_at.
        -- rewrite zlen_grow, <- Hs1. unfold s3. cbn [code app_code with_code ca]. rewrite Hs2. apply wr_at.
    + intros x Hx. rewrite P2 by (intros q g Hq; apply (Hx q g); now right). apply Hs3. apply (Hx p f). now left.
Qed.

Lemma step_def W G s l : Inv W G s -> ca s <= MAX_CODE_SIZE -> 0 < ca s -> dfind G l = None ->
  exists s', do_op W s (ODef l) = Some s' /\ Inv W ((ca s, cfs s, ODef l) :: G) s' /\ cfs s' = cfs s.
Proof.
  intros HI Hm Hpos Hnew. cbn [do_op]. unfold def_label.
  pose proof (i_gl _ _ _ HI l) as Hl. rewrite Hnew in Hl.
  pose proof (uses_desc _ _ _ l (i_tower _ _ _ HI)) as Hd.
  assert (Haddr : 0 <= gl s l /\ zlen (uses G l) <= gl s l).
  { destruct (uses G l) as [|p r]; cbn [chain desc] in *; [change (zlen (@nil Z)) with 0; lia|].
    destruct Hl as [-> _]. destruct Hd as [Hd1 Hd2]. pose proof (desc_len 4 _ _ ltac:(lia) Hd2).
    pose proof (desc_nonneg 4 _ _ ltac:(lia) Hd2). rewrite zlen_cons. lia. }
  destruct (Z.ltb_spec (gl s l) 0); [lia|].
  set (s1 := AS (code s) (ca s) (upd (gl s) l (- ca s)) (tl s) (tfs s) (cfs s)).
  destruct (patch_ok (ca s) (uses G l) (Z.to_nat (gl s l)) (gl s l) s1 (ca s)) as (s2 & E & E1 & E2 & E3 & E4 & P1 & P2).
  { exact Hl. } { exact Hd. } { exact Hm. } { lia. }
  rewrite E. cbn [bind]. eexists. split; [reflexivity|]. split; [|exact E4].
  set (s' := with_code s2 (code s2) (ca s)).
  (* entries other than uses of l are untouched *)
  assert (Hother : forall e, In e G -> snd e <> OUse l ->
     forall x, fst (fst e) <= x < fst (fst e) + op_size W (snd e) -> code s2 x = code s x).
  { intros e He Hne x Hx. apply P2. intros p Hp Hin. apply uses_in in Hp. destruct Hp as [f Hp].
    destruct (tower_disj _ _ _ e (p, f, OUse l) (i_tower _ _ _ HI) He Hp) as [->|Hdj]; [now apply Hne|].
    cbn [fst snd op_size] in Hdj. lia. }
  constructor.
  - cbn [tower op_size]. split; [unfold s'; cbn [ca with_code]; lia|apply HI].
  - intros m. cbn [dfind uses]. change (gl s' m) with (gl s2 m). rewrite E1. cbn [gl s1].
    destruct (Z.eqb_spec l m) as [<-|Hn].
    + rewrite upd_same. auto.
    + rewrite upd_other by auto. pose proof (i_gl _ _ _ HI m) as H1. destruct (dfind G m); [exact H1|].
      eapply chain_ext; [|exact H1]. intros p Hp. change (code s' (p + 3)) with (code s2 (p + 3)).
      apply uses_in in Hp. destruct Hp as [f Hp]. apply (Hother _ Hp); cbn [fst snd op_size]; [congruence|lia].
  - intros m. cbn [gfind guses]. change (tl s' m) with (tl s2 m). change (tfs s' m) with (tfs s2 m).
    rewrite E2, E3. cbn [tl tfs s1]. pose proof (i_tl _ _ _ HI m) as H1. destruct (gfind G m); [exact H1|].
    pose proof (goto_size_pos W). eapply gchain_ext; [lia| |exact H1]. intros p f Hp x Hx.
    apply guses_in in Hp. apply (Hother _ Hp); cbn [fst snd op_size]; [congruence|lia].
  - intros [[p f] o] [Eq|Hin].
    + injection Eq as <- <- <-. exact I.
    + pose proof (i_good _ _ _ HI _ Hin) as Hg.
      destruct (match o with OUse m => Z.eqb m l | _ => false end) eqn:Eo.
      * destruct o; try discriminate. apply Z.eqb_eq in Eo. subst l0.
        unfold good. cbn [op_bytes dfind]. rewrite Z.eqb_refl. apply P1. apply uses_in. eauto.
      * assert (Hne : o <> OUse l) by (intros ->; rewrite Z.eqb_refl in Eo; discriminate).
        eapply good_ext with (c := code s).
        -- intros x Hx. apply (Hother _ Hin); assumption.
        -- destruct o; try exact Hg. cbn [good op_bytes dfind] in *. rewrite Z.eqb_sym in Eo. now rewrite Eo.
Qed.

Lemma step_defgoto W G s l : Inv W G s -> ca s <= MAX_CODE_SIZE -> 0 < ca s -> gfind G l = None ->
  exists s', do_op W s (ODefGoto l) = Some s' /\ Inv W ((ca s, cfs s, ODefGoto l) :: G) s' /\ cfs s' = cfs s.
Proof.
  intros HI Hm Hpos Hnew. cbn [do_op]. unfold def_goto_label. pose proof (goto_size_pos W) as Hgs.
  pose proof (i_tl _ _ _ HI l) as Hl. rewrite Hnew in Hl.
  pose proof (guses_desc _ _ _ l (i_tower _ _ _ HI)) as Hd.
  assert (Haddr : 0 <= tl s l /\ zlen (guses G l) <= tl s l).
  { destruct (guses G l) as [|[p f] r]; cbn [gchain desc map fst] in *; [change (zlen (@nil (Z*Z))) with 0; lia|].
    destruct Hl as (-> & _). destruct Hd as [Hd1 Hd2]. pose proof (desc_len (goto_size W) _ _ ltac:(lia) Hd2) as Hlen.
    pose proof (desc_nonneg (goto_size W) _ _ ltac:(lia) Hd2). rewrite zlen_cons.
    unfold zlen in *. rewrite map_length in Hlen. lia. }
  destruct (Z.ltb_spec (tl s l) 0); [lia|].
  set (s1 := AS (code s) (ca s) (gl s) (upd (tl s) l (- ca s)) (upd (tfs s) l (cfs s)) (cfs s)).
  destruct (gpatch_ok W (ca s) (guses G l) (Z.to_nat (tl s l)) (tl s l) s1 (ca s)) as (s2 & E & E1 & E2 & E3 & E4 & P1 & P2).
  { exact Hl. } { exact Hd. } { exact Hm. } { lia. }
  rewrite E. cbn [bind]. eexists. split; [reflexivity|]. split; [|exact E4].
  set (s' := with_code s2 (code s2) (ca s)).
  assert (Hother : forall e, In e G -> snd e <> OGoto l ->
     forall x, fst (fst e) <= x < fst (fst e) + op_size W (snd e) -> code s2 x = code s x).
  { intros e He Hne x Hx. apply P2. intros p f Hp Hin. apply guses_in in Hp.
    destruct (tower_disj _ _ _ e (p, f, OGoto l) (i_tower _ _ _ HI) He Hp) as [->|Hdj]; [now apply Hne|].
    cbn [fst snd op_size] in Hdj. lia. }
  constructor.
  - cbn [tower op_size]. split; [unfold s'; cbn [ca with_code]; lia|apply HI].
  - intros m. cbn [dfind uses]. change (gl s' m) with (gl s2 m). rewrite E1. cbn [gl s1].
    pose proof (i_gl _ _ _ HI m) as H1. destruct (dfind G m); [exact H1|].
    eapply chain_ext; [|exact H1]. intros p Hp. change (code s' (p + 3)) with (code s2 (p + 3)).
    apply uses_in in Hp. destruct Hp as [f Hp]. apply (Hother _ Hp); cbn [fst snd op_size]; [congruence|lia].
  - intros m. cbn [gfind guses]. change (tl s' m) with (tl s2 m). change (tfs s' m) with (tfs s2 m).
    rewrite E2, E3. cbn [tl tfs s1].
    destruct (Z.eqb_spec l m) as [<-|Hn].
    + rewrite !upd_same. auto.
    + rewrite !upd_other by auto. pose proof (i_tl _ _ _ HI m) as H1. destruct (gfind G m); [exact H1|].
      eapply gchain_ext; [lia| |exact H1]. intros p f Hp x Hx.
      apply guses_in in Hp. apply (Hother _ Hp); cbn [fst snd op_size]; [congruence|lia].
  - intros [[p f] o] [Eq|Hin].
    + injection Eq as <- <- <-. exact I.
    + pose proof (i_good _ _ _ HI _ Hin) as Hg.
      destruct (match o with OGoto m => Z.eqb m l | _ => false end) eqn:Eo.
      * destruct o; try discriminate. apply Z.eqb_eq in Eo. subst l0.
        unfold good. cbn [op_bytes gfind]. rewrite Z.eqb_refl. apply (P1 p f). apply guses_in. exact Hin.
      * assert (Hne : o <> OGoto l) by (intros ->; rewrite Z.eqb_refl in Eo; discriminate).
        eapply good_ext with (c := code s).
        -- intros x Hx. apply (Hother _ Hin); assumption.
        -- destruct o; try exact Hg. cbn [good op_bytes gfind] in *. rewrite Z.eqb_sym in Eo. now rewrite Eo.
Qed.

(** ** The whole history *)
Fixpoint place (W pos fs : Z) (l : list aop) : list placed :=
  match l with [] => [] | o :: r => (pos, fs, o) :: place W (pos + op_size W o) (frame_after fs o) r end.

Lemma inv_ca W G s o G' s' : Inv W G s -> Inv W ((ca s, cfs s, o) :: G') s' -> ca s' = ca s + op_size W o.
Proof. intros _ H. pose proof (i_tower _ _ _ H) as Ht. cbn [tower] in Ht. apply Ht. Qed.
Lemma ops_size_nonneg W l : 0 <= ops_size W l.
Proof. induction l; cbn [ops_size]; [lia|]. pose proof (op_size_nonneg W a). lia. Qed.
Lemma dfind_cons_other p f o G l : o <> ODef l -> dfind ((p, f, o) :: G) l = dfind G l.
Proof. intros H. cbn [dfind]. destruct o; try reflexivity. destruct (Z.eqb_spec l0 l); congruence. Qed.
Lemma gfind_cons_other p f o G l : o <> ODefGoto l -> gfind ((p, f, o) :: G) l = gfind G l.
Proof. intros H. cbn [gfind]. destruct o; try reflexivity. destruct (Z.eqb_spec l0 l); congruence. Qed.

Lemma run_inv W ops : forall G s, Inv W G s -> ca s + ops_size W ops <= MAX_CODE_SIZE ->
  NoDup (defs ops) -> NoDup (gdefs ops) ->
  (forall x, In x (defs ops) -> dfind G x = None) -> (forall x, In x (gdefs ops) -> gfind G x = None) ->
  (forall p f o, In (p, f, o) (place W (ca s) (cfs s) ops) ->
     match o with ODef _ | ODefGoto _ => 0 < p | _ => True end) ->
  exists s', do_ops W s ops = Some s' /\ Inv W (rev (place W (ca s) (cfs s) ops) ++ G) s' /\
    ca s' = ca s + ops_size W ops.
Proof.
  induction ops as [|o r IH]; intros G s HI Hm Hn1 Hn2 Hd1 Hd2 Hpos; cbn [do_ops place rev app ops_size] in *.
  - exists s. repeat split; auto; try apply HI. lia.
  - pose proof (ops_size_nonneg W r) as Hr.
    assert (Hp0 : match o with ODef _ | ODefGoto _ => 0 < ca s | _ => True end).
    { apply (Hpos (ca s) (cfs s) o). now left. }
    assert (exists s1, do_op W s o = Some s1 /\ Inv W ((ca s, cfs s, o) :: G) s1 /\ cfs s1 = frame_after (cfs s) o)
      as (s1 & E & HI1 & Hf).
    { destruct o; cbn [op_size frame_after] in *.
      - apply step_byte; auto. lia.
      - apply step_use; auto. lia.
      - apply step_def; auto; [lia|]. apply Hd1. cbn. now left.
      - apply step_goto; auto. lia.
      - apply step_defgoto; auto; [lia|]. apply Hd2. cbn. now left.
      - apply step_frame; auto. }
    pose proof (inv_ca _ _ _ _ _ _ HI HI1) as Hca.
    assert (Hnd1 : NoDup (defs r) /\ forall x, In x (defs r) -> o <> ODef x).
    { destruct o; cbn [defs flat_map app] in Hn1; try (split; [exact Hn1|discriminate]).
      inversion Hn1 as [|? ? Hni Hn1']; subst. split; [exact Hn1'|]. intros x Hx E'. injection E' as <-. exact (Hni Hx). }
    assert (Hnd2 : NoDup (gdefs r) /\ forall x, In x (gdefs r) -> o <> ODefGoto x).
    { destruct o; cbn [gdefs flat_map app] in Hn2; try (split; [exact Hn2|discriminate]).
      inversion Hn2 as [|? ? Hni Hn2']; subst. split; [exact Hn2'|]. intros x Hx E'. injection E' as <-. exact (Hni Hx). }
    destruct (IH ((ca s, cfs s, o) :: G) s1 HI1) as (s2 & E2 & HI2 & Hca2).
    + lia.
    + apply Hnd1.
    + apply Hnd2.
    + intros x Hx. rewrite dfind_cons_other by (now apply Hnd1). apply Hd1.
      destruct o; cbn [defs flat_map app]; try exact Hx. now right.
    + intros x Hx. rewrite gfind_cons_other by (now apply Hnd2). apply Hd2.
      destruct o; cbn [gdefs flat_map app]; try exact Hx. now right.
    + intros p f q Hin. apply (Hpos p f q). right. rewrite Hca, Hf in Hin. exact Hin.
    + exists s2. rewrite E. cbn [bind]. split; [exact E2|]. split; [|lia].
      rewrite Hca, Hf in HI2. rewrite <- app_assoc. exact HI2.
Qed.

(** Relating the ghost history to the two-pass assembler. *)
Lemma label_addr_in W ops : forall pos fs x a, label_addr W pos ops x = Some a -> exists f, In (a, f, ODef x) (place W pos fs ops).
Proof.
  induction ops as [|o r IH]; intros pos fs x a H; cbn [label_addr place] in *; [discriminate|].
  destruct o; cbn [op_size frame_after In] in *;
    try (destruct (IH _ fs _ _ H) as [f Hf]; exists f; right; exact Hf).
  - destruct (Z.eqb_spec x l) as [->|].
    + injection H as ->. exists fs. now left.
    + destruct (IH _ fs _ _ H) as [f Hf]. exists f. right. now rewrite Z.add_0_r.
  - destruct (IH _ n _ _ H) as [f Hf]; exists f; right; exact Hf.
Qed.
Lemma goto_addr_in W ops : forall pos fs x a f, goto_addr W pos fs ops x = Some (a, f) -> In (a, f, ODefGoto x) (place W pos fs ops).
Proof.
  induction ops as [|o r IH]; intros pos fs x a f H; cbn [goto_addr place] in *; [discriminate|].
  destruct o; cbn [op_size frame_after In] in *; try (right; apply IH; exact H).
  destruct (Z.eqb_spec x l) as [->|].
  - injection H as -> ->. now left.
  - right. rewrite Z.add_0_r. apply IH. exact H.
Qed.
Lemma label_addr_def W ops : forall pos x, In x (defs ops) -> exists a, label_addr W pos ops x = Some a.
Proof.
  induction ops as [|o r IH]; intros pos x H; [destruct H|]. cbn [label_addr].
  destruct o; cbn [defs flat_map app] in H; try (apply IH; exact H).
  destruct (Z.eqb_spec x l) as [->|]; [eauto|]. destruct H as [->|H]; [congruence|]. apply IH. exact H.
Qed.
Lemma goto_addr_def W ops : forall pos fs x, In x (gdefs ops) -> exists a f, goto_addr W pos fs ops x = Some (a, f).
Proof.
  induction ops as [|o r IH]; intros pos fs x H; [destruct H|]. cbn [goto_addr].
  destruct o; cbn [gdefs flat_map app] in H; try (apply IH; exact H).
  destruct (Z.eqb_spec x l) as [->|]; [eauto|]. destruct H as [->|H]; [congruence|]. apply IH. exact H.
Qed.
Lemma place_defs W ops : forall pos fs a f x, In (a, f, ODef x) (place W pos fs ops) -> In x (defs ops).
Proof.
  induction ops as [|o r IH]; intros pos fs a f x H; [destruct H|]. cbn [place] in H.
  cbn [defs flat_map]. apply in_or_app. destruct H as [E|H].
  - injection E as _ _ ->. left. now left.
  - right. eapply IH. exact H.
Qed.
Lemma place_gdefs W ops : forall pos fs a f x, In (a, f, ODefGoto x) (place W pos fs ops) -> In x (gdefs ops).
Proof.
  induction ops as [|o r IH]; intros pos fs a f x H; [destruct H|]. cbn [place] in H.
  cbn [gdefs flat_map]. apply in_or_app. destruct H as [E|H].
  - injection E as _ _ ->. left. now left.
  - right. eapply IH. exact H.
Qed.
Lemma label_addr_uniq W ops : forall pos fs x a f, NoDup (defs ops) -> In (a, f, ODef x) (place W pos fs ops) ->
  label_addr W pos ops x = Some a.
Proof.
  induction ops as [|o r IH]; intros pos fs x a f Hn H; [destruct H|]. cbn [place] in H. cbn [label_addr].
  destruct H as [E|H].
  - injection E as -> -> ->. now rewrite Z.eqb_refl.
  - destruct o; cbn [defs flat_map app op_size] in *; try (eapply IH; eauto; fail).
    inversion Hn as [|? ? Hni Hn']; subst. destruct (Z.eqb_spec x l) as [->|].
    + exfalso. apply Hni. eapply place_defs. exact H.
    + rewrite Z.add_0_r in H. eapply IH; eauto.
Qed.
Lemma goto_addr_uniq W ops : forall pos fs x a f, NoDup (gdefs ops) -> In (a, f, ODefGoto x) (place W pos fs ops) ->
  goto_addr W pos fs ops x = Some (a, f).
Proof.
  induction ops as [|o r IH]; intros pos fs x a f Hn H; [destruct H|]. cbn [place] in H. cbn [goto_addr].
  destruct H as [E|H].
  - injection E as -> -> ->. now rewrite Z.eqb_refl.
  - destruct o; cbn [gdefs flat_map app op_size frame_after] in *; try (eapply IH; eauto; fail).
    inversion Hn as [|? ? Hni Hn']; subst. destruct (Z.eqb_spec x l) as [->|].
    + exfalso. apply Hni. eapply place_gdefs. exact H.
    + rewrite Z.add_0_r in H. eapply IH; eauto.
Qed.
Lemma dfind_some G l a : dfind G l = Some a -> exists f, In (a, f, ODef l) G.
Proof.
  induction G as [|[[p f] o] r IH]; cbn [dfind]; [discriminate|]. intros H.
  destruct o; try (destruct (IH H) as [g Hg]; exists g; now right).
  destruct (Z.eqb_spec l0 l) as [->|]; [injection H as ->; exists f; now left|].
  destruct (IH H) as [g Hg]; exists g; now right.
Qed.
Lemma gfind_some G l a f : gfind G l = Some (a, f) -> In (a, f, ODefGoto l) G.
Proof.
  induction G as [|[[p g] o] r IH]; cbn [gfind]; [discriminate|]. intros H.
  destruct o; try (right; now apply IH).
  destruct (Z.eqb_spec l0 l) as [->|]; [injection H as -> ->; now left|]. right. now apply IH.
Qed.
Lemma dfind_in G l a f : In (a, f, ODef l) G -> exists b, dfind G l = Some b.
Proof.
  induction G as [|[[p g] o] r IH]; cbn [dfind In]; [tauto|]. intros [E|H].
  - injection E as -> -> ->. rewrite Z.eqb_refl. eauto.
  - destruct (IH H) as [b Hb]. destruct o; eauto. destruct (l0 =? l); eauto.
Qed.
Lemma gfind_in G l a f : In (a, f, ODefGoto l) G -> exists b, gfind G l = Some b.
Proof.
  induction G as [|[[p g] o] r IH]; cbn [gfind In]; [tauto|]. intros [E|H].
  - injection E as -> -> ->. rewrite Z.eqb_refl. eauto.
  - destruct (IH H) as [b Hb]. destruct o; eauto. destruct (l0 =? l); eauto.
Qed.

Lemma second_pass_at W lab glab c ops : forall pos fs,
  (forall p f o, In (p, f, o) (place W pos fs ops) ->
     at_ c p (op_bytes W lab glab p f o) /\ zlen (op_bytes W lab glab p f o) = op_size W o) ->
  at_ c pos (second_pass W lab glab pos fs ops) /\ zlen (second_pass W lab glab pos fs ops) = ops_size W ops.
Proof.
  induction ops as [|o r IH]; intros pos fs H; cbn [second_pass ops_size place] in *; [split; [exact I|reflexivity]|].
  destruct (H pos fs o) as [H1 H2]; [now left|].
  destruct (IH (pos + op_size W o) (frame_after fs o)) as [I1 I2]; [intros; apply H; now right|].
  rewrite zlen_app, H2, I2. split; [|reflexivity]. apply at_app. rewrite H2. auto.
Qed.

Lemma place_ops W ops : forall pos fs p f o, In (p, f, o) (place W pos fs ops) -> In o ops.
Proof.
  induction ops as [|q r IH]; intros pos fs p f o H; [destruct H|]. destruct H as [E|H].
  - injection E as -> -> ->. now left.
  - right. eapply IH. exact H.
Qed.

Theorem backpatch_correct W ops : labels_ok W ops -> ops_size W ops <= MAX_CODE_SIZE ->
  exists s, do_ops W as0 ops = Some s /\ ca s = zlen (assemble W ops) /\ at_ (code s) 0 (assemble W ops).
Proof.
  intros (Hu & Hg & Hn1 & Hn2 & Hp1 & Hp2) Hm.
  assert (HI0 : Inv W [] as0).
  { constructor; cbn; auto; try tauto. }
  destruct (run_inv W ops [] as0 HI0) as (s & E & HI & Hca); auto.
  { intros p f o Hin. cbn [ca cfs as0] in Hin. destruct o; auto.
    - eapply Hp1. eapply label_addr_uniq; eauto.
    - eapply Hp2. eapply goto_addr_uniq; eauto. }
  cbn [ca cfs as0] in *. rewrite app_nil_r in HI. rewrite Z.add_0_l in Hca.
  set (P := place W 0 0 ops) in *.
  assert (Hd : forall x, In x (defs ops) -> dfind (rev P) x = label_addr W 0 ops x).
  { intros x Hx. destruct (label_addr_def W ops 0 x Hx) as [a Ha]. rewrite Ha.
    destruct (label_addr_in W ops 0 0 x a Ha) as [f Hf]. fold P in Hf.
    destruct (dfind_in (rev P) x a f) as [b Hb]; [now apply -> in_rev|].
    destruct (dfind_some _ _ _ Hb) as [g Hin]. apply in_rev in Hin.
    rewrite Hb, <- Ha. symmetry. eapply label_addr_uniq; eauto. }
  assert (Hd' : forall x, In x (gdefs ops) -> gfind (rev P) x = goto_addr W 0 0 ops x).
  { intros x Hx. destruct (goto_addr_def W ops 0 0 x Hx) as (a & f & Ha). rewrite Ha.
    pose proof (goto_addr_in W ops 0 0 x a f Ha) as Hf. fold P in Hf.
    destruct (gfind_in (rev P) x a f) as [[b g] Hb]; [now apply -> in_rev|].
    pose proof (gfind_some _ _ _ _ Hb) as Hin. apply in_rev in Hin.
    rewrite Hb, <- Ha. symmetry. eapply goto_addr_uniq; eauto. }
  destruct (second_pass_at W (label_addr W 0 ops) (goto_addr W 0 0 ops) (code s) ops 0 0) as [S1 S2].
  { intros p f o Hin. pose proof (place_ops _ _ _ _ _ _ _ Hin) as Hop.
    pose proof (i_good _ _ _ HI (p, f, o) (proj1 (in_rev _ _) Hin)) as Hgood. unfold good in Hgood.
    destruct o; cbn [op_bytes op_size] in *; try (split; [exact Hgood|reflexivity]).
    - rewrite Hd in Hgood by (now apply Hu). destruct (label_addr_def W ops 0 l (Hu _ Hop)) as [a Ha].
      rewrite Ha in *. split; [exact Hgood|reflexivity].
    - rewrite Hd' in Hgood by (now apply Hg). destruct (goto_addr_def W ops 0 0 l (Hg _ Hop)) as (a & g & Ha).
      rewrite Ha in *. split; [exact Hgood|].
      rewrite goto_bytes_split, zlen_app, zlen_grow, zlen_jmp. lia. }
  exists s. split; [exact E|]. unfold assemble. rewrite S2. auto.
Qed.
