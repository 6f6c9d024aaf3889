(* C23: getchar delivers the input bytes in order (simple build; the release
   build is refuted, and proved for inputs without lines of certain lengths).
   C24: file reads deliver the file's bytes in order. *)
From Coq Require Import ZArith List Bool Lia.
From Verif Require Import Base Text ShStr ShHeap PropShHeap PropShStr ShRead.
Import ListNotations.
Open Scope Z_scope.

(* input bytes; a shell cannot hold NUL in a variable *)
Definition input_byte (c : Z) : Prop := 1 <= c < 256.

(* the k-th value a reader must deliver *)
Definition delivered (inp : list Z) (k : nat) : Z :=
  match nth_error inp k with Some c => c | None => -1 end.

Lemma read_line_spec inp : let '(l, r, ok) := read_line inp in
  inp = l ++ (if ok then 10 :: r else []) /\ (ok = false -> r = []) /\ ~ In 10 l.
Proof.
  induction inp as [|c t IH]; cbn [read_line]; [cbn; auto|].
  destruct (Z.eqb_spec c 10) as [->|H]; [cbn; split; [reflexivity|split; [discriminate|auto]]|].
  revert IH. destruct (read_line t) as [[l r] ok]. intros (E1 & H1 & H2). rewrite E1.
  split; [reflexivity|]. split; [assumption|]. intros [E|E]; [congruence|contradiction].
Qed.

Section Props.
Variables (sg lookup compact : bool).
Notation first_char := (first_char sg lookup compact).

Lemma first_char_ok c t : input_byte c -> first_char (c :: t) = c.
Proof.
  intros H. unfold ShStr.first_char. cbn [hd_error].
  destruct compact eqn:Ec; [rewrite <- Ec; apply char_to_int_ok; exact H|].
  rewrite <- Ec.
  destruct (assoc c fast_cases) as [v|] eqn:E; [|apply char_to_int_ok; exact H].
  assert (HP : match assoc c fast_cases with Some v => v =? c | None => true end = true).
  { apply (bytes_forall (fun c => match assoc c fast_cases with Some v => v =? c | None => true end));
      [vm_compute; reflexivity|unfold isbyte, input_byte in *; lia]. }
  rewrite E in HP. apply Z.eqb_eq in HP. exact HP.
Qed.

(* ---------------- C23, simple ---------------- *)
Definition pend (s : gst) : list Z := gbuf s ++ (if gend s =? 10 then [10] else []) ++ ginp s.
Definition ginv (s : gst) : Prop :=
  (gend s = 0 /\ gbuf s = [] \/ gend s = 10 \/ gend s = -1 /\ ginp s = []) /\ Forall input_byte (pend s).

Lemma getchar_step s : ginv s -> let (c, s') := getchar sg lookup compact s in
  ginv s' /\ match pend s with
             | [] => c = -1 /\ pend s' = []
             | x :: r => c = x /\ pend s' = r end.
Proof.
  intros [Hs Hb]. unfold getchar. destruct (gbuf s) as [|x b] eqn:Eb.
  - unfold pend in Hb |- *. rewrite Eb in *. cbn [app] in *.
    destruct (Z.eqb_spec (gend s) 0) as [E0|E0]; cbn [negb].
    + rewrite E0 in *. change (0 =? 10) with false in *. cbn iota in *. cbn [app] in *.
      pose proof (read_line_spec (ginp s)) as HR. destruct (read_line (ginp s)) as [[l r] ok].
      destruct HR as (HR & Hr & _). rewrite HR in Hb. apply Forall_app in Hb. destruct Hb as [Hl Hr2].
      rewrite HR. destruct ok.
      * inversion Hr2 as [|? ? _ Hr3]; subst. destruct l as [|x l].
        -- cbn [app]. split; [split; [left; auto|]|]; cbn; auto.
        -- inversion Hl; subst. rewrite first_char_ok by assumption. cbn [tl]. split; [split|].
           ++ right; left; reflexivity.
           ++ unfold pend. cbn [gbuf gend ginp]. change (10 =? 10) with true. cbn iota.
              apply Forall_app. split; auto.
           ++ cbn [app]. split; [reflexivity|]. cbn [gbuf gend ginp]. reflexivity.
      * specialize (Hr eq_refl). subst r. destruct l as [|x l].
        -- cbn [app]. split; [split; [left; auto|]|]; cbn; auto.
        -- inversion Hl; subst. rewrite first_char_ok by assumption. cbn [tl]. split; [split|].
           ++ right; right. auto.
           ++ unfold pend. cbn [gbuf gend ginp]. change (-1 =? 10) with false. cbn iota.
              cbn [app]. rewrite app_nil_r. assumption.
           ++ cbn [app gbuf gend ginp]. change (-1 =? 10) with false. cbn iota. auto.
    + destruct Hs as [[Hs _]|[Hs|[Hs Hi]]]; [contradiction| |]; rewrite Hs in *.
      * change (10 =? 10) with true in *. cbn iota in *. cbn [app] in *. inversion Hb; subst.
        split; [split; [left; auto|]|]; cbn; auto.
      * rewrite Hi in *. cbn. split; [split; [left; auto|]|]; cbn; auto.
  - unfold pend in Hb |- *. rewrite Eb in *. cbn [app] in *. inversion Hb; subst.
    rewrite first_char_ok by assumption. cbn [tl gbuf gend ginp]. split; [|auto].
    split.
    + cbn [gbuf gend ginp]. destruct Hs as [[_ Hs]|Hs]; [discriminate|auto].
    + exact H2.
Qed.

Lemma getchars_spec n : forall s, ginv s ->
  getchars sg lookup compact n s = map (delivered (pend s)) (seq 0 n).
Proof.
  induction n as [|n IH]; intros s H; [reflexivity|]. cbn [getchars seq map].
  pose proof (getchar_step s H) as HS. destruct (getchar sg lookup compact s) as [c s'].
  destruct HS as [Hi HS]. rewrite IH by assumption. rewrite <- seq_shift, map_map.
  destruct (pend s) as [|x r]; destruct HS as [-> ->]; [|reflexivity].
  apply (f_equal (cons (-1))). apply map_ext. intros k. unfold delivered. cbn [nth_error].
  destruct k; reflexivity.
Qed.

Theorem c23_getchar : forall inp n, Forall input_byte inp ->
  getchars sg lookup compact n (g0 inp) = map (delivered inp) (seq 0 n).
Proof.
  intros inp n H. rewrite getchars_spec; [reflexivity|].
  split; [left; auto|]. exact H.
Qed.

(* ---------------- C23, release build ---------------- *)
(* After an empty line the next value is 256. *)
Theorem c23_buffered_refuted : forall rest,
  getchars_long sg lookup compact 2 (l0 (10 :: rest)) = [10; 256].
Proof.
  intros rest. unfold l0. cbn [getchars_long]. unfold getchar_long. cbn.
  destruct compact, lookup, sg; vm_compute; reflexivity.
Qed.
(* ... and after a line of 16 characters *)
Theorem c23_buffered_16_refuted : forall c rest, c = 65 ->
  nth 16 (getchars_long sg lookup compact 17 (l0 (repeat c 16 ++ 10 :: rest))) 0 = 256.
Proof. intros c rest ->. destruct compact, lookup, sg; vm_compute; reflexivity. Qed.

(* Otherwise it is right: when the length of no line is a multiple of 16 (the
   text after the last newline may be empty).  Stated up to the first -1. *)
Definition text (ls : list (list Z)) (last : list Z) : list Z :=
  flat_map (fun l => l ++ [10]) ls ++ last.
Definition good_line (l : list Z) : Prop :=
  ~ In 10 l /\ Forall input_byte l /\ (length l mod 16 <> 0)%nat.

Lemma read_line_app l r : ~ In 10 l -> read_line (l ++ 10 :: r) = (l, r, true).
Proof.
  induction l as [|c l IH]; intros H; cbn [app read_line]; [reflexivity|].
  destruct (Z.eqb_spec c 10) as [->|]; [exfalso; apply H; left; reflexivity|].
  rewrite IH; [reflexivity|]. intros X. apply H. right. assumption.
Qed.
Lemma read_line_last l : ~ In 10 l -> read_line l = (l, [], false).
Proof.
  induction l as [|c l IH]; intros H; cbn [read_line]; [reflexivity|].
  destruct (Z.eqb_spec c 10) as [->|]; [exfalso; apply H; left; reflexivity|].
  rewrite IH; [reflexivity|]. intros X. apply H. right. assumption.
Qed.

Definition goodinp (inp : list Z) : Prop :=
  exists ls last, inp = text ls last /\ Forall good_line ls /\ (last = [] \/ good_line last).

Definition lpend (s : lst) : list Z :=
  l16 s ++ l256 s ++ lbuf s ++ (if lend s =? 10 then [10] else []) ++ linp s.
Definition linv (s : lst) : Prop :=
  Forall input_byte (l16 s ++ l256 s ++ lbuf s) /\
  (lend s = 0 /\ l16 s = [] /\ lfin s = true \/ lend s = 10 \/ lend s = -1 /\ linp s = []) /\
  (if lfin s then l256 s = [] /\ lbuf s = []
   else (length (l256 s ++ lbuf s) mod 16 <> 0)%nat /\ (lbuf s <> [] -> (length (l256 s) mod 16 = 0)%nat)) /\
  goodinp (linp s).

Lemma head16 (b : list Z) : (16 <= length b)%nat ->
  exists x, length x = 16%nat /\ b = x ++ skipn 16 b /\ firstn 16 b = x.
Proof.
  intros H. exists (firstn 16 b). split; [rewrite firstn_length; lia|]. split; [symmetry; apply firstn_skipn|reflexivity].
Qed.

(* the common tail, when there is something to deliver *)
Lemma long_tail s : Forall input_byte (l16 s ++ l256 s ++ lbuf s) ->
  (lend s = 10 \/ lend s = -1 /\ linp s = []) ->
  (if lfin s then l256 s = [] /\ lbuf s = [] /\ l16 s <> []
   else (length (l256 s ++ lbuf s) mod 16 <> 0)%nat /\ (lbuf s <> [] -> (length (l256 s) mod 16 = 0)%nat)) ->
  goodinp (linp s) ->
  let (c, s') := getchar_long_tail sg lookup compact s in linv s' /\ lpend s = c :: lpend s'.
Proof.
  intros Hb He Hl Hg. unfold getchar_long_tail.
  destruct s as [b16 b256 buf e fin inp]. cbn [l16 l256 lbuf lend lfin linp] in *.
  assert (H1 : exists b256' buf' f, line_head 256 b256 buf = (b256', buf', f) /\ b256' ++ buf' = b256 ++ buf /\
     (fin = false -> b256' <> [] /\ (buf' <> [] -> (length b256' mod 16 = 0)%nat)) /\ (fin = true -> b256' = [] /\ buf' = [])).
  { unfold line_head. destruct b256 as [|x b256].
    - destruct (Nat.leb_spec 256 (length buf)).
      + eexists _, _, _. split; [reflexivity|]. split; [apply firstn_skipn|]. split.
        * intros ->. split; [intros E; apply (f_equal (@length Z)) in E; rewrite firstn_length in E; change (length (@nil Z)) with 0%nat in E; lia|].
          intros _. rewrite firstn_length, Nat.min_l by lia. reflexivity.
        * intros ->. destruct Hl as (_ & -> & _). cbn in H. lia.
      + eexists _, _, _. split; [reflexivity|]. split; [apply app_nil_r|]. split.
        * intros ->. split; [|congruence]. intros ->. destruct Hl as [Hl _]. cbn in Hl. congruence.
        * intros ->. destruct Hl as (_ & -> & _). auto.
    - eexists _, _, _. split; [reflexivity|]. split; [reflexivity|]. split.
      + intros ->. split; [congruence|]. apply Hl.
      + intros ->. destruct Hl as (E & _ & _). discriminate. }
  destruct H1 as (b256' & buf' & f & -> & E1 & Hf & Ht).
  assert (Hpre : b256 ++ buf ++ (if e =? 10 then [10] else []) ++ inp = b256' ++ buf' ++ (if e =? 10 then [10] else []) ++ inp).
  { rewrite !app_assoc, <- E1. reflexivity. }
  assert (Hb' : Forall input_byte (b16 ++ b256' ++ buf')) by (rewrite E1; assumption).
  assert (Hm : fin = false -> (length (b256' ++ buf') mod 16 <> 0)%nat).
  { intros ->. rewrite E1. apply Hl. }
  unfold lpend. cbn [l16 l256 lbuf lend lfin linp]. rewrite Hpre.
  clear Hpre E1 Hb f. unfold line_head. destruct b16 as [|x b16].
  - assert (fin = false) as -> by (destruct fin; [exfalso; apply (proj2 (proj2 Hl)); reflexivity|reflexivity]).
    destruct (Hf eq_refl) as [Hne Hmm]. specialize (Hm eq_refl). cbn [app] in *.
    destruct (Nat.leb_spec 16 (length b256')) as [Hlen|Hlen].
    + destruct (head16 b256' Hlen) as (h & Hh & Eh & Ef). rewrite Ef.
      destruct h as [|x h]; [discriminate|]. cbn [tl].
      rewrite Eh in Hb'. cbn [app] in Hb'. inversion Hb'; subst.
      rewrite first_char_ok by assumption.
      assert (Els : length b256' = (16 + length (skipn 16 b256'))%nat) by (rewrite Eh at 1; rewrite app_length, Hh; reflexivity).
      split.
      * unfold linv. cbn [l16 l256 lbuf lend lfin linp]. split; [rewrite app_assoc; assumption|].
        split; [tauto|]. split; [|assumption]. split.
        -- rewrite app_length in *. rewrite Els in Hm. replace (16 + length (skipn 16 b256') + length buf')%nat with (length (skipn 16 b256') + length buf' + 1 * 16)%nat in Hm by lia.
           rewrite Nat.mod_add in Hm by lia. assumption.
        -- intros Hbf. specialize (Hmm Hbf). rewrite Els in Hmm. replace (16 + length (skipn 16 b256'))%nat with (length (skipn 16 b256') + 1 * 16)%nat in Hmm by lia.
           rewrite Nat.mod_add in Hmm by lia. assumption.
      * rewrite Eh at 1. cbn [app]. rewrite <- app_assoc. reflexivity.
    + (* the last piece *)
      assert (buf' = []) as ->.
      { destruct buf' as [|y buf']; [reflexivity|]. exfalso. specialize (Hmm ltac:(congruence)).
        rewrite Nat.mod_small in Hmm by lia. apply Hne. destruct b256'; [reflexivity|discriminate]. }
      destruct b256' as [|x b]; [congruence|]. cbn [tl]. cbn [app] in Hb'. inversion Hb'; subst.
      rewrite first_char_ok by assumption. split.
      * unfold linv. cbn [l16 l256 lbuf lend lfin linp]. split; [cbn [app]; rewrite !app_nil_r in *; assumption|].
        split; [tauto|]. auto.
      * reflexivity.
  - cbn [app] in Hb'. inversion Hb'; subst. cbn [tl]. rewrite first_char_ok by assumption. split; [|reflexivity].
    unfold linv. cbn [l16 l256 lbuf lend lfin linp]. split; [assumption|]. split; [tauto|]. split; [|assumption].
    destruct fin; [auto|]. split; [auto|]. apply Hf. reflexivity.
Qed.

Lemma getchar_long_step s : linv s -> let (c, s') := getchar_long sg lookup compact s in
  match lpend s with [] => c = -1 | x :: r => c = x /\ linv s' /\ lpend s' = r end.
Proof.
  intros (Hb & He & Hl & Hg).
  destruct (l16 s) as [|x b] eqn:E16; [destruct (lfin s) eqn:Ef|].
  - unfold getchar_long. rewrite E16, Ef. destruct Hl as [H256 Hbuf].
    unfold lpend at 1. rewrite E16, H256, Hbuf. cbn [app].
    destruct (Z.eqb_spec (lend s) 0) as [E0|E0]; cbn [negb].
    + rewrite E0. change (0 =? 10) with false. cbn iota. cbn [app].
      destruct Hg as (ls & last & E & H1 & H2). destruct ls as [|l ls].
      * unfold text in E. cbn [flat_map app] in E. rewrite E. destruct H2 as [->|(H2 & H3 & H4)].
        -- cbn [read_line]. reflexivity.
        -- rewrite read_line_last by assumption.
           destruct last as [|x last]; [cbn in H4; congruence|].
           pose proof (long_tail (L [] [] (x :: last) (-1) false [])) as HT. cbn [l16 l256 lbuf lend lfin linp app] in HT.
           specialize (HT H3 (or_intror (conj eq_refl eq_refl)) (conj H4 (fun _ => eq_refl)) (ex_intro _ [] (ex_intro _ [] (conj eq_refl (conj (Forall_nil _) (or_introl eq_refl)))))).
           destruct (getchar_long_tail sg lookup compact _) as [c s']. destruct HT as [HT1 HT2].
           unfold lpend at 1 in HT2. cbn in HT2. rewrite app_nil_r in HT2. injection HT2 as -> ->. auto.
      * unfold text in E. cbn [flat_map] in E. rewrite <- !app_assoc in E. cbn [app] in E.
        inversion H1 as [|? ? (G1 & G2 & G3) H1']; subst. fold (text ls last) in E.
        rewrite E, read_line_app by assumption. destruct l as [|x l]; [cbn in G3; congruence|].
        pose proof (long_tail (L [] [] (x :: l) 10 false (text ls last))) as HT. cbn [l16 l256 lbuf lend lfin linp app] in HT.
        specialize (HT G2 (or_introl eq_refl) (conj G3 (fun _ => eq_refl)) (ex_intro _ ls (ex_intro _ last (conj eq_refl (conj H1' H2))))).
        destruct (getchar_long_tail sg lookup compact _) as [c s']. destruct HT as [HT1 HT2].
        unfold lpend at 1 in HT2. cbn [l16 l256 lbuf lend lfin linp app] in HT2. change (10 =? 10) with true in HT2. cbn iota in HT2. cbn [app] in HT2.
        cbn [app]. injection HT2 as -> HT2. rewrite <- HT2. auto.
    + destruct He as [(He & _)|[He|(He & Hi)]]; [contradiction| |]; rewrite He.
      * change (10 =? 10) with true. cbn iota. cbn [app]. split; [reflexivity|]. split; [|reflexivity].
        unfold linv. cbn [l16 l256 lbuf lend lfin linp app]. rewrite ?Hbuf; auto 10.
      * rewrite Hi. reflexivity.
  - assert (He' : lend s = 10 \/ lend s = -1 /\ linp s = []) by (destruct He as [(_ & _ & H)|]; [congruence|assumption]).
    pose proof (long_tail s) as HT. rewrite E16, Ef in HT. specialize (HT Hb He' Hl Hg).
    unfold getchar_long. rewrite E16, Ef.
    destruct (getchar_long_tail sg lookup compact s) as [c s']. destruct HT as [H1 H2].
    rewrite H2. auto.
  - assert (He' : lend s = 10 \/ lend s = -1 /\ linp s = []) by (destruct He as [(_ & H & _)|]; [congruence|assumption]).
    pose proof (long_tail s) as HT. rewrite E16 in HT.
    assert (Hl2 : if lfin s then l256 s = [] /\ lbuf s = [] /\ x :: b <> []
      else (length (l256 s ++ lbuf s) mod 16 <> 0)%nat /\ (lbuf s <> [] -> (length (l256 s) mod 16 = 0)%nat)).
    { destruct (lfin s); [|assumption]. destruct Hl. repeat split; auto. congruence. }
    specialize (HT Hb He' Hl2 Hg).
    unfold getchar_long. rewrite E16.
    destruct (getchar_long_tail sg lookup compact s) as [c s']. destruct HT as [H1 H2].
    rewrite H2. auto.
Qed.

Lemma getchars_long_spec n : forall s, linv s -> (n <= S (length (lpend s)))%nat ->
  getchars_long sg lookup compact n s = map (delivered (lpend s)) (seq 0 n).
Proof.
  induction n as [|n IH]; intros s H Hn; [reflexivity|]. cbn [getchars_long seq map].
  pose proof (getchar_long_step s H) as HS. destruct (getchar_long sg lookup compact s) as [c s'].
  destruct (lpend s) as [|x r].
  - subst c. cbn [length] in Hn. assert (n = 0%nat) as -> by lia. reflexivity.
  - destruct HS as (-> & Hi & Hp). rewrite IH; [|assumption|rewrite Hp; cbn [length] in Hn; lia].
    rewrite Hp, <- seq_shift, map_map. reflexivity.
Qed.

Theorem c23_buffered_partial : forall ls last n,
  Forall good_line ls -> (last = [] \/ good_line last) ->
  (n <= S (length (text ls last)))%nat ->
  getchars_long sg lookup compact n (l0 (text ls last)) = map (delivered (text ls last)) (seq 0 n).
Proof.
  intros ls last n H1 H2 Hn. apply (getchars_long_spec n (l0 (text ls last))).
  - unfold linv. cbn [l0 l16 l256 lbuf lend lfin linp app]. split; [constructor|]. split; [auto|]. split; [auto|].
    exists ls, last. auto.
  - exact Hn.
Qed.

(* ---------------- C24 ---------------- *)
Variables (tag long : bool).
Notation read_byte := (read_byte sg lookup compact tag long).
Notation rt_read := (rt_read sg lookup compact tag long).

Lemma line_codes_ok l : Forall input_byte l -> line_codes sg lookup compact l = l.
Proof.
  induction 1 as [|c l Hc _ IH]; [reflexivity|]. cbn [line_codes]. rewrite first_char_ok by assumption. rewrite IH. reflexivity.
Qed.
Lemma line_codes_long_ok fuel : forall b256 buf, (length (b256 ++ buf) < fuel)%nat -> Forall input_byte (b256 ++ buf) ->
  (buf <> [] -> (length b256 mod 16 = 0)%nat) ->
  line_codes_long sg lookup compact fuel b256 buf = b256 ++ buf.
Proof.
  induction fuel as [|fuel IH]; intros b256 buf Hf Hb Hm; [lia|]. cbn [line_codes_long].
  assert (H1 : exists b256' buf' f, line_head 256 b256 buf = (b256', buf', f) /\ b256' ++ buf' = b256 ++ buf /\
     (b256' = [] -> b256 ++ buf = []) /\ (buf' <> [] -> (length b256' mod 16 = 0)%nat)).
  { unfold line_head. destruct b256 as [|x b256].
    - destruct (Nat.leb_spec 256 (length buf)).
      + eexists _, _, _. split; [reflexivity|]. split; [apply firstn_skipn|]. split.
        * intros E. exfalso. apply (f_equal (@length Z)) in E. rewrite firstn_length in E. change (length (@nil Z)) with 0%nat in E. lia.
        * intros _. rewrite firstn_length, Nat.min_l by lia. reflexivity.
      + eexists _, _, _. split; [reflexivity|]. split; [apply app_nil_r|]. split; [auto|congruence].
    - eexists _, _, _. split; [reflexivity|]. split; [reflexivity|]. split; [congruence|assumption]. }
  destruct H1 as (b256' & buf' & f & -> & E1 & Hne & Hm'). rewrite <- E1 in *. clear E1 Hm b256 buf f.
  unfold line_head. destruct (Nat.leb_spec 16 (length b256')) as [Hlen|Hlen].
  - destruct (head16 b256' Hlen) as (h & Hh & Eh & Ef). rewrite Ef. rewrite Eh in Hb.
    rewrite <- app_assoc in Hb. apply Forall_app in Hb. destruct Hb as [Hb1 Hb2].
    rewrite line_codes_ok by assumption.
    assert (Els : length b256' = (16 + length (skipn 16 b256'))%nat) by (rewrite Eh at 1; rewrite app_length, Hh; reflexivity).
    rewrite app_length in Hf.
    rewrite IH; [|rewrite app_length; lia|assumption|].
    + rewrite app_assoc. rewrite <- Eh. reflexivity.
    + intros Hbf. specialize (Hm' Hbf). rewrite Els in Hm'. replace (16 + length (skipn 16 b256'))%nat with (length (skipn 16 b256') + 1 * 16)%nat in Hm' by lia.
      rewrite Nat.mod_add in Hm' by lia. assumption.
  - assert (buf' = []) as ->.
    { destruct buf' as [|y buf']; [reflexivity|]. exfalso. specialize (Hm' ltac:(congruence)).
      rewrite Nat.mod_small in Hm' by lia. destruct b256'; [|discriminate]. specialize (Hne eq_refl). discriminate. }
    rewrite !app_nil_r in *. apply line_codes_ok. assumption.
Qed.
Lemma unpack_codes_ok l : Forall input_byte l -> unpack_codes sg lookup compact long l = l.
Proof.
  intros H. unfold unpack_codes. destruct long; [|apply line_codes_ok; assumption].
  apply (line_codes_long_ok (S (length l)) [] l); [cbn [app]; lia|assumption|reflexivity].
Qed.

(* buffer contents *)
Fixpoint holds (h : heap) (a : Z) (l : list Z) : Prop :=
  match l with [] => True | v :: t => cell h a = Some v /\ holds h (a + 1) t end.
Definition finv (s : rst) (rem : list Z) : Prop :=
  let f := rf s in
  1 + hd tag <= fbuf f /\ 1000 <= flen f /\ fbuf f + flen f <= ALLOC (rh s) /\
  (tag = true -> cell (rh s) (fbuf f - 1) = Some (flen f)) /\
  0 <= fcur f /\ exists p, rem = p ++ data f /\ holds (rh s) (fbuf f + fcur f) (p ++ [0]) /\
     fcur f + Z.of_nat (length p) < flen f /\ Forall input_byte rem.

Lemma holds_put_list vs : forall h a, holds (put_list h a vs) a vs.
Proof.
  induction vs as [|v vs IH]; intros h a; cbn [put_list holds]; [exact I|]. split; [|apply IH].
  rewrite put_list_other by lia. cbn [put cell]. rewrite Z.eqb_refl. reflexivity.
Qed.
Lemma holds_ext l : forall h h' a, (forall c, a <= c < a + Z.of_nat (length l) -> cell h' c = cell h c) -> holds h a l -> holds h' a l.
Proof.
  induction l as [|v l IH]; intros h h' a He; cbn [holds]; [auto|]. intros [H1 H2]. split.
  - rewrite He; [assumption|]. cbn [length]. lia.
  - eapply IH; [|eassumption]. intros c Hc. apply He. cbn [length]. lia.
Qed.

(* the cells a file's buffer occupies *)
Definition inbuf (f : fst_) (c : Z) : Prop := fbuf f - hd tag <= c < fbuf f + flen f.
(* what reading may change: its own buffer, or fresh cells *)
Definition framed (h h' : heap) (f f' : fst_) : Prop :=
  ALLOC h <= ALLOC h' /\
  (forall c, c < ALLOC h -> ~ inbuf f c -> cell h' c = cell h c) /\
  (forall c, inbuf f' c -> inbuf f c \/ ALLOC h <= c).

Lemma finv_ext s h' rem : finv s rem -> ALLOC (rh s) <= ALLOC h' ->
  (forall c, inbuf (rf s) c -> cell h' c = cell (rh s) c) -> finv (R h' (rf s)) rem.
Proof.
  intros (H1 & H2 & H3 & H4 & H5 & p & H6 & H7 & H8 & H9) E1 E2. unfold finv. cbn [rf rh].
  assert (Hh : 0 <= hd tag <= 1) by (unfold hd; destruct tag; lia).
  split; [assumption|]. split; [assumption|]. split; [lia|]. split.
  - intros T. rewrite E2; [auto|]. unfold inbuf. rewrite T. cbn [hd]. lia.
  - split; [assumption|]. exists p. split; [assumption|]. split; [|auto].
    eapply holds_ext; [|exact H7]. intros c Hc. apply E2. rewrite app_length in Hc. cbn [length] in Hc.
    unfold inbuf. lia.
Qed.

Lemma refill_ok s rem : finv s rem -> cell (rh s) (fbuf (rf s) + fcur (rf s)) = Some 0 ->
  exists s1, refill sg lookup compact tag long s = Some s1 /\
    (rem <> [] -> finv (R (rh s1) (F (fbuf (rf s1)) 0 (flen (rf s1)) (data (rf s1)))) rem /\
                  cell (rh s1) (fbuf (rf s1) + 0) <> Some 0) /\
    (rem = [] -> finv s1 rem /\ cell (rh s1) (fbuf (rf s1) + 0) = Some 0) /\
    framed (rh s) (rh s1) (rf s) (rf s1).
Proof.
  intros (H1 & H2 & H3 & H4 & H5 & p & H6 & H7 & H8 & H9) H0.
  destruct s as [h [b cur n d]]. cbn [rf rh fbuf fcur flen data] in *.
  assert (p = []) as ->.
  { destruct p as [|x p]; [reflexivity|]. exfalso. cbn [app holds] in H7. destruct H7 as [H7 _]. rewrite H7 in H0.
    injection H0 as ->. rewrite H6 in H9. inversion H9; subst. unfold input_byte in *. lia. }
  cbn [app] in *. subst d.
  unfold refill. cbn [rf rh fbuf fcur flen data].
  pose proof (read_line_spec rem) as HR. destruct (read_line rem) as [[l r] ok]. destruct HR as (HR & Hr & Hn).
  assert (Hl : Forall input_byte l) by (rewrite HR in H9; apply Forall_app in H9; tauto).
  rewrite unpack_codes_ok by assumption.
  assert (Hlen : Z.of_nat (length (l ++ (if ok then [10] else []) ++ [0])) <= Z.of_nat (length l) + 2).
  { rewrite !app_length. destruct ok; cbn [length]; lia. }
  assert (Hgrow : exists h2 p2 n2,
     (if n - 2 <? Z.of_nat (length l) then
        match rt_free tag h b with
        | Some h1 => let (p, h2) := rt_malloc tag h1 (Z.of_nat (length l) * 2) in Some (h2, p, Z.of_nat (length l) * 2)
        | None => None end else Some (h, b, n)) = Some (h2, p2, n2) /\
     1 + hd tag <= p2 /\ 1000 <= n2 /\ p2 + n2 <= ALLOC h2 /\ (tag = true -> cell h2 (p2 - 1) = Some n2) /\
     Z.of_nat (length l) + 2 <= n2 /\ (l = [] -> h2 = h /\ p2 = b /\ n2 = n) /\
     ALLOC h <= ALLOC h2 /\ (forall c, c < ALLOC h -> c < b - hd tag \/ b + n <= c -> cell h2 c = cell h c) /\
     (p2 = b /\ n2 = n \/ ALLOC h <= p2 - hd tag)).
  { destruct (Z.ltb_spec (n - 2) (Z.of_nat (length l))).
    - assert (exists h1, rt_free tag h b = Some h1) as [h1 Hf].
      { unfold rt_free. destruct tag; [rewrite (H4 eq_refl)|]; eexists; reflexivity. }
      rewrite Hf. destruct (free_parts tag h b n h1 Hf ltac:(lia) H4) as [F1 F2].
      destruct (malloc_parts tag h1 (Z.of_nat (length l) * 2)) as (M1 & M2 & M3 & M4).
      destruct (rt_malloc tag h1 (Z.of_nat (length l) * 2)) as [p2 h2]. cbn [fst snd] in *.
      assert (Hh : 0 <= hd tag <= 1) by (unfold hd; destruct tag; lia).
      eexists _, _, _. split; [reflexivity|].
      split; [lia|]. split; [lia|]. split; [lia|]. split; [|split; [lia|split; [intros ->; cbn in *; lia|split; [lia|split; [|lia]]]]].
      2: { intros c Hc1 Hc2. rewrite M4 by lia. apply F2. assumption. }
      intros T. rewrite M1. rewrite T in *. cbn [hd] in *. replace (ALLOC h1 + 1 - 1) with (ALLOC h1) by lia. auto.
    - eexists _, _, _. split; [reflexivity|]. split; [lia|]. split; [lia|]. split; [lia|]. split; [assumption|]. split; [lia|]. split; [auto|]. split; [lia|]. split; auto. }
  destruct Hgrow as (h2 & p2 & n2 & -> & G1 & G2 & G3 & G4 & G5 & G6 & G7 & G8 & G9).
  eexists. split; [reflexivity|]. cbn [rf rh fbuf fcur flen data].
  assert (Hvs : holds (put_list h2 p2 (l ++ (if ok then [10] else []) ++ [0])) p2 (l ++ (if ok then [10] else []) ++ [0])) by apply holds_put_list.
  assert (Hh : 0 <= hd tag <= 1) by (unfold hd; destruct tag; lia).
  split; [|split].
  3: { unfold framed. cbn [rf rh]. rewrite put_list_alloc. split; [assumption|]. unfold inbuf. cbn [fbuf flen]. split.
       - intros c Hc1 Hc2. rewrite put_list_other by lia. apply G8; lia.
       - intros c Hc. destruct G9 as [(-> & ->)|G9]; lia. }
  - intros Hne. split; [|rewrite Z.add_0_r; intros E0; destruct l as [|x l]; [destruct ok; [|exfalso; apply Hne; exact HR]|];
        cbn [app holds] in Hvs; destruct Hvs as [Hvs _]; cbn [app] in Hvs, E0; rewrite Hvs in E0; injection E0 as E0; [lia|];
        inversion Hl; unfold input_byte in *; lia].
    unfold finv. cbn [rf rh fbuf fcur flen data]. rewrite put_list_alloc.
    split; [assumption|]. split; [assumption|]. split; [assumption|]. split.
    + intros T. rewrite put_list_other by lia. auto.
    + split; [lia|]. exists (l ++ (if ok then [10] else [])). rewrite Z.add_0_r, <- !app_assoc.
      split; [|split; [assumption|split; [|assumption]]].
      * destruct ok; [assumption|]. cbn [app]. rewrite (Hr eq_refl). cbn [app]. exact HR.
      * rewrite app_length. destruct ok; cbn [length]; lia.
  - intros ->. destruct l as [|x l]; [|discriminate]. destruct ok; [discriminate|].
    destruct (G6 eq_refl) as (-> & -> & ->). cbn [app put_list] in Hvs |- *. specialize (Hr eq_refl). subst r.
    rewrite Z.add_0_r. split; [|cbn [put cell]; rewrite Z.eqb_refl; reflexivity].
    unfold finv. cbn [rf rh fbuf fcur flen data]. cbn [put ALLOC cell].
    split; [assumption|]. split; [assumption|]. split; [assumption|]. split.
    + intros T. rewrite (proj2 (Z.eqb_neq _ _)) by lia. auto.
    + split; [assumption|]. exists []. cbn [app holds length]. split; [reflexivity|]. split; [|auto].
      split; [|exact I]. cbn [put cell]. destruct (b + cur =? b); [reflexivity|assumption].
Qed.

Lemma read_byte_ok s rem : finv s rem ->
  exists s', read_byte s = Some (delivered rem 0, s') /\ finv s' (tl rem) /\ framed (rh s) (rh s') (rf s) (rf s').
Proof.
  intros H. pose proof H as (H1 & H2 & H3 & H4 & H5 & p & H6 & H7 & H8 & H9).
  unfold ShRead.read_byte. destruct p as [|x p].
  - cbn [app holds] in H7. destruct H7 as [H7 _]. rewrite H7. rewrite Z.eqb_refl.
    destruct (refill_ok s rem H H7) as (s1 & -> & R1 & R2 & R3).
    destruct rem as [|x r].
    + destruct (R2 eq_refl) as [F1 F2]. rewrite F2. rewrite Z.eqb_refl. eexists. split; [reflexivity|]. split; [exact F1|exact R3].
    + specialize (R1 ltac:(discriminate)). destruct R1 as ((I1 & I2 & I3 & I4 & I5 & q & I6 & I7 & I8 & I9) & Hnz).
      cbn [rf rh fbuf fcur flen data] in *.
      destruct q as [|y q].
      { (* the refilled buffer is not empty *)
        exfalso. cbn [app holds] in I7. apply Hnz. apply I7. }
      cbn [app] in I6, I7. injection I6 as <- I6. cbn [holds] in I7. destruct I7 as [I7 I7']. rewrite I7.
      inversion I9; subst. rewrite (proj2 (Z.eqb_neq _ _)) by (unfold input_byte in *; lia).
      eexists. split; [reflexivity|]. cbn [tl]. split; [|exact R3]. unfold finv. cbn [rf rh fbuf fcur flen data].
      split; [assumption|]. split; [assumption|]. split; [assumption|]. split; [assumption|]. split; [lia|].
      exists q. split; [reflexivity|]. replace (fbuf (rf s1) + 1) with (fbuf (rf s1) + 0 + 1) by lia.
      split; [assumption|]. cbn [length] in I8. split; [lia|assumption].
  - cbn [app] in H6, H7. cbn [holds] in H7. destruct H7 as [H7 H7']. rewrite H7. rewrite H6 in H9. inversion H9; subst.
    rewrite (proj2 (Z.eqb_neq _ _)) by (unfold input_byte in *; lia).
    eexists. split; [reflexivity|]. cbn [tl]. split; [|unfold framed, inbuf; cbn [rf rh fbuf flen]; split; [lia|split; [auto|intros; lia]]]. unfold finv. cbn [rf rh fbuf fcur flen data].
    split; [assumption|]. split; [assumption|]. split; [assumption|]. split; [assumption|]. split; [lia|].
    exists p. split; [reflexivity|]. rewrite Z.add_assoc. split; [assumption|]. cbn [length] in H8. split; [lia|assumption].
Qed.

Lemma framed_trans h1 h2 h3 f1 f2 f3 : framed h1 h2 f1 f2 -> framed h2 h3 f2 f3 -> framed h1 h3 f1 f3.
Proof.
  intros (A1 & A2 & A3) (B1 & B2 & B3). split; [lia|]. split.
  - intros c Hc Hn. rewrite B2; [apply A2; assumption|lia|]. intros Hi. destruct (A3 c Hi); [contradiction|lia].
  - intros c Hc. destruct (B3 c Hc) as [H|H]; [apply A3; assumption|right; lia].
Qed.

(* read: like fgetc repeated, plus the stores into the caller's buffer *)
Lemma rt_read_ok count buf : forall i s rem, finv s rem -> 0 <= i ->
  buf + i + Z.of_nat count <= ALLOC (rh s) ->
  (forall c, buf <= c < buf + i + Z.of_nat count -> ~ inbuf (rf s) c) ->
  exists s', rt_read count buf i s = Some (i + Z.of_nat (Nat.min count (length rem)), s') /\
    finv s' (skipn count rem) /\ ALLOC (rh s) <= ALLOC (rh s') /\
    (forall c, inbuf (rf s') c -> inbuf (rf s) c \/ ALLOC (rh s) <= c) /\
    (forall c, c < ALLOC (rh s) -> ~ inbuf (rf s) c -> ~ (buf + i <= c < buf + i + Z.of_nat count) -> cell (rh s') c = cell (rh s) c) /\
    (forall k, (k < Nat.min count (length rem))%nat -> cell (rh s') (buf + i + Z.of_nat k) = nth_error rem k) /\
    (forall c, buf <= c < buf + i -> cell (rh s') c = cell (rh s) c).
Proof.
  induction count as [|count IH]; intros i s rem H Hi Ha Hd.
  - exists s. cbn [ShRead.rt_read Nat.min skipn]. split; [f_equal; f_equal; cbn; lia|]. split; [assumption|].
    split; [lia|]. split; [auto|]. split; [auto|]. split; [intros; lia|auto].
  - cbn [ShRead.rt_read]. destruct (read_byte_ok s rem H) as (s1 & -> & H1 & F).
    destruct rem as [|x rem].
    + change (delivered [] 0) with (-1). change (-1 <? 0) with true. cbn iota. exists s1.
      split; [f_equal; f_equal; cbn; lia|]. split; [exact H1|]. destruct F as (F1 & F2 & F3).
      split; [assumption|]. split; [assumption|]. split; [auto|]. split; [cbn; intros; lia|].
      intros c Hc. apply F2; [lia|]. apply Hd. lia.
    + change (delivered (x :: rem) 0) with x. cbn [tl] in H1.
      assert (Hx : input_byte x) by (destruct H as (_ & _ & _ & _ & _ & p & _ & _ & _ & H9); inversion H9; assumption).
      rewrite (proj2 (Z.ltb_ge _ _)) by (unfold input_byte in *; lia).
      destruct F as (F1 & F2 & F3).
      set (s2 := R (put (rh s1) (buf + i) x) (rf s1)).
      assert (Hnb : ~ inbuf (rf s1) (buf + i)).
      { intros Hc. destruct (F3 _ Hc) as [Hc'|Hc']; [|lia]. apply (Hd (buf + i)); [lia|assumption]. }
      assert (H2 : finv s2 rem).
      { apply (finv_ext s1); [assumption|cbn; lia|]. intros c Hc. cbn [put cell]. rewrite (proj2 (Z.eqb_neq _ _)); [reflexivity|]. intros ->. contradiction. }
      destruct (IH (i + 1) s2 rem H2) as (s' & E & K1 & K2 & K3 & K4 & K5 & K6).
      * lia.
      * cbn [s2 rh put ALLOC]. lia.
      * cbn [s2 rf]. intros c Hc Hin. destruct (F3 _ Hin) as [Hc'|Hc']; [|lia]. apply (Hd c); [lia|assumption].
      * exists s'. fold s2. rewrite E. cbn [length Nat.min skipn].
        split; [f_equal; f_equal; lia|]. split; [assumption|].
        cbn [s2 rh rf put ALLOC] in K2, K3, K4.
        split; [lia|]. split; [|split; [|split]].
        -- intros c Hc. destruct (K3 c Hc) as [Hc'|]; [|right; lia]. apply F3. assumption.
        -- intros c Hc1 Hc2 Hc3. rewrite K4.
           ++ cbn [put cell]. rewrite (proj2 (Z.eqb_neq _ _)) by lia. apply F2; assumption.
           ++ lia.
           ++ intros Hin. destruct (F3 _ Hin); [contradiction|lia].
           ++ lia.
        -- intros k Hk. destruct k as [|k].
           ++ cbn [nth_error]. rewrite K6 by lia. replace (buf + i + Z.of_nat 0) with (buf + i) by lia.
              cbn [s2 rh put cell]. rewrite Z.eqb_refl. reflexivity.
           ++ cbn [nth_error]. rewrite <- K5 by lia. f_equal. lia.
        -- intros c Hc. rewrite K6 by lia. cbn [s2 rh put cell]. rewrite (proj2 (Z.eqb_neq _ _)) by lia.
           apply F2; [lia|]. apply Hd. lia.
Qed.

(* ---- histories of a script using several files ---- *)
Inductive event :=
| EOpen (fd : nat) (content : list Z)          (* open returned fd *)
| EGetc (fd : nat) (v : Z)                     (* fgetc returned v *)
| ERead (fd count : nat) (n : Z) (stored : list (option Z))  (* read returned n; the first n cells of the caller's buffer *)
| EClose (fd : nat)
| EOther.                                      (* any other activity of the program *)

Definition cells (h : heap) (a : Z) (n : nat) : list (option Z) :=
  map (fun k => cell h (a + Z.of_nat k)) (seq 0 n).
(* other activity: the heap may grow and any cell outside the open files'
   buffers may change (the program only owns what malloc gave it, C22) *)
Definition elsewhere (s : sys) (h' : heap) : Prop :=
  ALLOC (sheap s) <= ALLOC h' /\
  forall fd f c, slots s fd = Input f -> inbuf f c -> cell h' c = cell (sheap s) c.
(* the buffer handed to read lies in allocated memory, outside file buffers *)
Definition own (s : sys) (a n : Z) : Prop :=
  a + n <= ALLOC (sheap s) /\ forall fd f c, slots s fd = Input f -> a <= c < a + n -> ~ inbuf f c.

Inductive sstep : sys -> event -> sys -> Prop :=
| SOpen s content fd s' : Forall input_byte content -> sys_open tag s content = Some (fd, s') -> sstep s (EOpen fd content) s'
| SGetc s fd v s' : sys_fgetc sg lookup compact tag long s fd = Some (v, s') -> sstep s (EGetc fd v) s'
| SRead s fd buf count n s' : own s buf (Z.of_nat count) -> sys_read sg lookup compact tag long s fd buf count = Some (n, s') ->
    sstep s (ERead fd count n (cells (sheap s') buf (Z.to_nat n))) s'
| SClose s fd s' : sys_close tag s fd = Some s' -> sstep s (EClose fd) s'
| SOther s h' : elsewhere s h' -> sstep s EOther (Sys h' (slots s)).
Inductive hist : sys -> list event -> sys -> Prop :=
| H0_ s : hist s [] s
| HS_ s e s1 es s2 : sstep s e s1 -> hist s1 es s2 -> hist s (e :: es) s2.

(* The specification: each descriptor open for reading has the list of bytes
   not read yet. *)
Definition files := nat -> option (list Z).
Definition upd (t : files) (n : nat) (v : option (list Z)) : files := fun k => if Nat.eqb k n then v else t k.
Inductive allowed : files -> event -> files -> Prop :=
| AOpen t fd content : t fd = None -> allowed t (EOpen fd content) (upd t fd (Some content))
| AGetc t fd rem : t fd = Some rem -> allowed t (EGetc fd (delivered rem 0)) (upd t fd (Some (tl rem)))
| ARead t fd rem count : t fd = Some rem ->
    allowed t (ERead fd count (Z.of_nat (Nat.min count (length rem))) (map Some (firstn count rem))) (upd t fd (Some (skipn count rem)))
| AClose t fd rem : t fd = Some rem -> allowed t (EClose fd) (upd t fd None)
| AOther t : allowed t EOther t.
Inductive conforms : files -> list event -> Prop :=
| C0_ t : conforms t []
| CS_ t e t' es : allowed t e t' -> conforms t' es -> conforms t (e :: es).

Definition sinv (s : sys) (t : files) : Prop :=
  1 <= ALLOC (sheap s) /\
  (forall fd, match slots s fd with
              | Input f => exists rem, t fd = Some rem /\ finv (R (sheap s) f) rem
              | _ => t fd = None end) /\
  (forall a b f g c, slots s a = Input f -> slots s b = Input g -> inbuf f c -> inbuf g c -> a = b).

Lemma inbuf_alloc s f rem c : finv (R s f) rem -> inbuf f c -> c < ALLOC s.
Proof. intros (_ & _ & H & _) Hc. unfold inbuf in Hc. cbn [rf rh] in H. lia. Qed.

(* replacing one file by its state after some reading *)
Lemma sinv_step s t fd f rem h' f' rem' :
  sinv s t -> slots s fd = Input f -> t fd = Some rem -> finv (R (sheap s) f) rem ->
  finv (R h' f') rem' -> ALLOC (sheap s) <= ALLOC h' ->
  (forall c, inbuf f' c -> inbuf f c \/ ALLOC (sheap s) <= c) ->
  (forall b g c, b <> fd -> slots s b = Input g -> inbuf g c -> cell h' c = cell (sheap s) c) ->
  sinv (Sys h' (setslot (slots s) fd (Input f'))) (upd t fd (Some rem')).
Proof.
  intros (I0 & I1 & I2) Hs Ht Hf Hf' Ha Hb Hc. split; [cbn [sheap]; lia|]. split.
  - intros k. cbn [slots sheap]. unfold setslot, upd. destruct (Nat.eqb_spec k fd) as [->|Hk].
    + exists rem'. auto.
    + specialize (I1 k). destruct (slots s k) as [| |g] eqn:Ek; auto.
      destruct I1 as (rk & E & Hk2). exists rk. split; [assumption|].
      apply (finv_ext (R (sheap s) g)); [assumption|cbn; lia|]. cbn [rf rh]. intros c Hin. eapply Hc; eassumption.
  - cbn [slots]. unfold setslot. intros a b f1 g1 c.
    assert (K : forall b g1, b <> fd -> slots s b = Input g1 -> inbuf f' c -> inbuf g1 c -> False).
    { intros b0 g0 Hne Hsb H1 H2. destruct (Hb c H1) as [H|H].
      - apply Hne. symmetry. eapply I2; eauto.
      - pose proof (I1 b0) as X. rewrite Hsb in X. destruct X as (r0 & _ & X). pose proof (inbuf_alloc _ _ _ _ X H2). lia. }
    destruct (Nat.eqb_spec a fd) as [->|Hne], (Nat.eqb_spec b fd) as [->|Hne2]; intros E1 E2 H1 H2.
    + reflexivity.
    + injection E1 as <-. exfalso. eapply K; eauto.
    + injection E2 as <-. exfalso. eapply K; eauto.
    + eapply I2; eauto.
Qed.

Lemma free_slot_spec t n k fd : free_slot t n k = Some fd -> t fd = Closed.
Proof.
  revert n. induction k as [|k IH]; intros n; cbn [free_slot]; [discriminate|].
  destruct (t n) eqn:E; intros H; [injection H as <-; assumption|eauto|eauto].
Qed.

Lemma open_finv h content : 1 <= ALLOC h -> Forall input_byte content -> finv (rt_open tag h content) content /\
  ALLOC h <= ALLOC (rh (rt_open tag h content)) /\
  (forall c, inbuf (rf (rt_open tag h content)) c -> ALLOC h <= c) /\
  (forall c, c < ALLOC h -> cell (rh (rt_open tag h content)) c = cell h c).
Proof.
  intros H Hb. unfold rt_open. destruct (malloc_parts tag h 1000) as (M1 & M2 & M3 & M4).
  destruct (rt_malloc tag h 1000) as [p h1]. cbn [fst snd] in *. subst p.
  assert (Hh : 0 <= hd tag <= 1) by (unfold hd; destruct tag; lia).
  unfold finv, inbuf. cbn [rf rh fbuf fcur flen data put ALLOC cell]. split; [|split; [lia|split; [intros; lia|]]].
  - split; [lia|]. split; [lia|]. split; [lia|]. split.
    + intros T. rewrite (proj2 (Z.eqb_neq _ _)) by lia. rewrite T in *. cbn [hd] in *.
      replace (ALLOC h + 1 - 1) with (ALLOC h) by lia. auto.
    + split; [lia|]. exists []. cbn [app holds length put cell]. rewrite Z.add_0_r, Z.eqb_refl. repeat split; auto. 
  - intros c Hc. rewrite (proj2 (Z.eqb_neq _ _)) by lia. apply M4. lia.
Qed.

Lemma cells_map h a n l : (n <= length l)%nat -> (forall k, (k < n)%nat -> cell h (a + Z.of_nat k) = nth_error l k) ->
  cells h a n = map Some (firstn n l).
Proof.
  revert a l. induction n as [|n IH]; intros a l Hl H; [reflexivity|].
  destruct l as [|x l]; [cbn in Hl; lia|]. unfold cells. cbn [seq map firstn].
  rewrite (H 0%nat) by lia. cbn [nth_error]. f_equal. rewrite <- seq_shift, map_map.
  rewrite <- (IH (a + 1) l); [|cbn [length] in Hl; lia|].
  - unfold cells. apply map_ext. intros k. f_equal. lia.
  - intros k Hk. replace (a + 1 + Z.of_nat k) with (a + Z.of_nat (S k)) by lia. rewrite H by lia. reflexivity.
Qed.

Lemma step_ok s e s' t : sinv s t -> sstep s e s' -> exists t', allowed t e t' /\ sinv s' t'.
Proof.
  intros I0 Hs. destruct Hs as [s content fd s' Hb H|s fd v s' H|s fd buf count n s' Ho H|s fd s' H|s h' H].
  - unfold sys_open in H. destruct (free_slot (slots s) 0 10) as [k|] eqn:Ef; [|discriminate]. injection H as <- <-.
    apply free_slot_spec in Ef. destruct I0 as (I0 & I1 & I2).
    exists (upd t k (Some content)). split.
    + constructor. specialize (I1 k). rewrite Ef in I1. assumption.
    + destruct (open_finv (sheap s) content I0 Hb) as (O1 & O2 & O3 & O4).
      destruct (rt_open tag (sheap s) content) as [h' f']. cbn [rh rf] in *. split; [cbn [sheap]; lia|]. split.
      * intros j. cbn [slots sheap]. unfold setslot, upd. destruct (Nat.eqb_spec j k) as [->|Hne]; [exists content; auto|].
        specialize (I1 j). destruct (slots s j) as [| |g]; auto. destruct I1 as (r & E & Hf). exists r. split; [assumption|].
        apply (finv_ext (R (sheap s) g)); [assumption|cbn [rh]; assumption|]. cbn [rf rh]. intros c Hc. apply O4. eapply inbuf_alloc; eassumption.
      * cbn [slots]. unfold setslot. intros a b f g c.
        assert (K : forall b g, slots s b = Input g -> inbuf f' c -> inbuf g c -> False).
        { intros b0 g0 Hsb H1 H2. pose proof (I1 b0) as X. rewrite Hsb in X. destruct X as (r0 & _ & X).
          pose proof (inbuf_alloc _ _ _ _ X H2). specialize (O3 c H1). lia. }
        destruct (Nat.eqb_spec a k) as [->|Hne], (Nat.eqb_spec b k) as [->|Hne2]; intros E1 E2 H1 H2.
        -- reflexivity.
        -- injection E1 as <-. exfalso. eapply K; eauto.
        -- injection E2 as <-. exfalso. eapply K; eauto.
        -- eapply I2; eauto.
  - unfold sys_fgetc, with_file in H. destruct (slots s fd) as [| |f] eqn:Es; try discriminate.
    pose proof I0 as (J0 & J1 & J2). pose proof (J1 fd) as X. rewrite Es in X. destruct X as (rem & Et & Hf).
    destruct (read_byte_ok _ _ Hf) as (s1 & E & F1 & F2 & F3 & F4). rewrite E in H. injection H as <- <-.
    exists (upd t fd (Some (tl rem))). split; [constructor; assumption|]. destruct s1 as [h1 f1]. cbn [rh rf] in *.
    eapply sinv_step; try eassumption. intros b g c Hne Eb Hc. apply F3.
    + pose proof (J1 b) as Y. rewrite Eb in Y. destruct Y as (r0 & _ & Y). eapply inbuf_alloc; eassumption.
    + intros Hc2. apply Hne. eapply J2; eauto.
  - unfold sys_read, with_file in H. destruct (slots s fd) as [| |f] eqn:Es; try discriminate.
    pose proof I0 as (J0 & J1 & J2). pose proof (J1 fd) as X. rewrite Es in X. destruct X as (rem & Et & Hf).
    destruct Ho as [Ho1 Ho2].
    destruct (rt_read_ok count buf 0 _ _ Hf) as (s1 & E & F1 & F2 & F3 & F4 & F5 & _).
    { lia. } { cbn [rh]. lia. } { cbn [rf]. intros c Hc. eapply Ho2; [exact Es|lia]. }
    rewrite E in H. rewrite Z.add_0_l in H.
    assert (n = Z.of_nat (Nat.min count (length rem))) as -> by congruence.
    assert (s' = Sys (rh s1) (setslot (slots s) fd (Input (rf s1)))) as -> by congruence. clear H. cbn [sheap].
    exists (upd t fd (Some (skipn count rem))). split.
    + assert (Ec : cells (rh s1) buf (Z.to_nat (Z.of_nat (Nat.min count (length rem)))) = map Some (firstn count rem)).
      { rewrite (cells_map _ _ _ rem); [|lia|].
        - f_equal. rewrite Nat2Z.id. destruct (Nat.le_ge_cases count (length rem)).
          + rewrite Nat.min_l by assumption. reflexivity.
          + rewrite Nat.min_r by assumption. rewrite !firstn_all2 by lia. reflexivity.
        - intros k Hk. rewrite <- F5 by lia. f_equal. lia. }
      rewrite Ec. constructor. assumption.
    + destruct s1 as [h1 f1]. cbn [rh rf] in *. eapply sinv_step; try eassumption. intros b g c Hne Eb Hc. apply F4.
      * pose proof (J1 b) as Y. rewrite Eb in Y. destruct Y as (r0 & _ & Y). eapply inbuf_alloc; eassumption.
      * intros Hc2. apply Hne. eapply J2; eauto.
      * intros Hc2. apply (Ho2 b g c); [assumption|lia|assumption].
  - unfold sys_close in H. destruct (slots s fd) as [| |f] eqn:Es; try discriminate.
    destruct (rt_free tag (sheap s) (fbuf f)) as [h1|] eqn:Ef; [|discriminate]. injection H as <-.
    destruct I0 as (J0 & J1 & J2). pose proof (J1 fd) as X. rewrite Es in X. destruct X as (rem & Et & Hf).
    pose proof Hf as (_ & Hl & _ & Hn & _). cbn [rf rh] in *.
    destruct (free_parts tag _ _ (flen f) _ Ef ltac:(lia) Hn) as [F1 F2].
    exists (upd t fd None). split; [econstructor; eassumption|]. split; [cbn [sheap]; lia|]. split.
    + intros j. cbn [slots sheap]. unfold setslot, upd. destruct (Nat.eqb_spec j fd) as [->|Hne]; [reflexivity|].
      specialize (J1 j). destruct (slots s j) as [| |g] eqn:Ej; auto. destruct J1 as (r & E & Hg). exists r. split; [assumption|].
      apply (finv_ext (R (sheap s) g)); [assumption|cbn [rh]; lia|]. cbn [rf rh]. intros c Hc.
      apply F2. assert (~ inbuf f c) by (intros Hc2; apply Hne; eapply J2; eauto). unfold inbuf in *. lia.
    + cbn [slots]. unfold setslot. intros a b f1 g1 c.
      destruct (Nat.eqb_spec a fd), (Nat.eqb_spec b fd); try discriminate. apply J2.
  - exists t. split; [constructor|]. destruct I0 as (J0 & J1 & J2). destruct H as [H1 H2]. split; [cbn [sheap]; lia|]. split; [|exact J2].
    intros fd. cbn [slots sheap]. specialize (J1 fd). destruct (slots s fd) as [| |f] eqn:Es; auto.
    destruct J1 as (r & E & Hf). exists r. split; [assumption|]. apply (finv_ext (R (sheap s) f)); [assumption|assumption|].
    intros c Hc. eapply H2; eassumption.
Qed.

Lemma start_inv h stdin : 1 <= ALLOC h -> Forall input_byte stdin ->
  sinv (sys_start tag h stdin) (fun n => match n with O => Some stdin | _ => None end).
Proof.
  intros H Hb. destruct (open_finv h stdin H Hb) as (O1 & O2 & O3 & O4). unfold sys_start.
  split; [cbn [sheap]; lia|]. split.
  - intros [|[|[|n]]]; cbn [slots sheap]; auto. exists stdin. split; [reflexivity|].
    destruct (rt_open tag h stdin). exact O1.
  - intros [|[|[|a]]] [|[|[|b]]]; cbn [slots]; try discriminate. reflexivity.
Qed.

(* C24: whatever the script does, every value delivered from a file is the
   next byte of that file (or -1 at its end), for all open files at once. *)
Theorem c24_files : forall h stdin es s, 1 <= ALLOC h -> Forall input_byte stdin ->
  hist (sys_start tag h stdin) es s ->
  conforms (fun n => match n with O => Some stdin | _ => None end) es.
Proof.
  intros h stdin es s H Hb Hh. pose proof (start_inv h stdin H Hb) as HI.
  set (t := fun n : nat => match n with O => Some stdin | _ => None end) in *. clearbody t.
  induction Hh as [|s e s1 es s2 Hs Hh IH] in t, HI |- *; [constructor|].
  destruct (step_ok _ _ _ _ HI Hs) as (t' & Ha & HI'). econstructor; eauto.
Qed.

(* ... and the script never stops inside a read: descriptors open for reading
   can always be read. *)
Theorem c24_progress : forall h stdin es s fd f, 1 <= ALLOC h -> Forall input_byte stdin ->
  hist (sys_start tag h stdin) es s -> slots s fd = Input f ->
  (exists v s', sys_fgetc sg lookup compact tag long s fd = Some (v, s')) /\
  (forall buf count, own s buf (Z.of_nat count) ->
     exists n s', sys_read sg lookup compact tag long s fd buf count = Some (n, s')).
Proof.
  intros h stdin es s fd f H Hb Hh Hf. pose proof (start_inv h stdin H Hb) as HI.
  set (t := fun n : nat => match n with O => Some stdin | _ => None end) in *. clearbody t.
  induction Hh as [s|s e s1 es s2 Hs Hh IH] in t, HI, Hf |- *.
  - destruct HI as (J0 & J1 & J2). pose proof (J1 fd) as X. rewrite Hf in X. destruct X as (rem & Et & Hv). split.
    + unfold sys_fgetc, with_file. rewrite Hf. destruct (read_byte_ok _ _ Hv) as (r & -> & _). eauto.
    + intros buf count [Ho1 Ho2]. unfold sys_read, with_file. rewrite Hf.
      destruct (rt_read_ok count buf 0 _ _ Hv) as (r & -> & _); eauto.
      * lia.
      * cbn [rh]. lia.
      * cbn [rf]. intros c Hc. eapply Ho2; [exact Hf|lia].
  - destruct (step_ok _ _ _ _ HI Hs) as (t' & Ha & HI'). eauto.
Qed.

(* In the release build unpack_line (lines 792-804) uses getchar's variable
   __stdin_buf256 and leaves it empty, so reading a file between two getchar
   calls loses input: with twenty characters pending, four disappear. *)
Definition after_unpack_line (s : lst) : lst := L (l16 s) [] (lbuf s) (lend s) (lfin s) (linp s).
Theorem c23_file_read_clobbers_refuted :
  let inp := repeat 65 20 ++ [10] in
  let s1 := snd (getchar_long sg lookup compact (l0 inp)) in
  getchars_long sg lookup compact 15 (after_unpack_line s1) = repeat 65 15 /\
  nth 15 (getchars_long sg lookup compact 16 (after_unpack_line s1)) 0 <> delivered inp 16.
Proof. destruct compact, lookup, sg; split; vm_compute; congruence. Qed.
End Props.

(* Non-vacuity: standard input "hi\n", a file "a\nb" opened, both read. *)
Example c24_example : exists s,
  hist false false false true false (sys_start true (mkheap (fun _ => None) 1) [104; 105; 10])
    [EOpen 3 [97; 10; 98]; EGetc 0 104; EGetc 3 97; EGetc 3 10; EGetc 0 105; EGetc 3 98; EGetc 3 (-1); EGetc 3 (-1); EGetc 0 10; EClose 3; EGetc 0 (-1)] s.
Proof.
  eexists.
  eapply HS_. { apply SOpen; [repeat apply Forall_cons; try apply Forall_nil; unfold input_byte; lia|vm_compute; reflexivity]. }
  do 8 (eapply HS_; [apply SGetc; vm_compute; reflexivity|]).
  eapply HS_. { apply SClose. vm_compute. reflexivity. }
  eapply HS_; [apply SGetc; vm_compute; reflexivity|]. apply H0_.
Qed.
Example c23_example : getchars false false false 5 (g0 [104; 10; 105]) = [104; 10; 105; -1; -1].
Proof. reflexivity. Qed.
Example c23_good : Forall good_line [[65; 66]; repeat 65 17].
Proof.
  repeat apply Forall_cons; try apply Forall_nil; (split; [|split]).
  - cbn; lia.
  - repeat apply Forall_cons; try apply Forall_nil; unfold input_byte; lia.
  - cbn; lia.
  - cbn; lia.
  - repeat apply Forall_cons; try apply Forall_nil; unfold input_byte; lia.
  - cbn; lia.
Qed.
