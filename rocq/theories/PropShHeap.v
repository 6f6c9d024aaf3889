(* C22: run-time allocation in generated shell scripts never overlaps live
   objects.  Specification: a history of heap operations issued by a valid
   program (sizes are not negative, only live objects are freed, stores and
   initialisations stay inside live objects), with the set of live objects
   (address, size) as the program knows it. *)
From Coq Require Import ZArith List Bool Lia.
From Verif Require Import Base ShHeap.
Import ListNotations.
Open Scope Z_scope.

Inductive op :=
| OMalloc (size : Z)                        (* p = malloc(size) *)
| OFree (p : Z)                             (* free(p) *)
| OStore (p i v : Z)                        (* p[i] = v *)
| ODefarr (len : Z) (vs : list Z)           (* int a[len] = {vs} at file level *)
| ODefstr (bytes : list Z) (size : Z).      (* a string literal *)

(* live objects *)
Definition objs := list (Z * Z).

Section Spec.
Variable tag : bool.
Inductive step : op -> heap * objs -> heap * objs -> Prop :=
| StMalloc h l n : 0 <= n ->
    step (OMalloc n) (h, l) (snd (rt_malloc tag h n), (fst (rt_malloc tag h n), n) :: l)
| StFree h h' a b p n : rt_free tag h p = Some h' ->
    step (OFree p) (h, a ++ (p, n) :: b) (h', a ++ b)
| StStore h l p n i v : In (p, n) l -> 0 <= i < n ->
    step (OStore p i v) (h, l) (put h (p + i) v, l)
| StDefarr h l len vs : Z.of_nat (length vs) <= len ->
    step (ODefarr len vs) (h, l) (snd (rt_defarr tag h len vs), (fst (rt_defarr tag h len vs), len) :: l)
| StDefstr h l bytes size : Z.of_nat (length bytes) < size ->
    step (ODefstr bytes size) (h, l) (snd (rt_defstr tag h bytes size), (fst (rt_defstr tag h bytes size), size) :: l).

Inductive steps : list op -> heap * objs -> heap * objs -> Prop :=
| Steps0 x : steps [] x x
| StepsS o os x y z : step o x y -> steps os y z -> steps (o :: os) x z.
End Spec.

(* two objects have no cell in common *)
Definition apart (a b : Z * Z) : Prop := forall c,
  ~ ((fst a <= c < fst a + snd a) /\ (fst b <= c < fst b + snd b)).
Definition targets (o : op) (p : Z) : Prop :=
  match o with OFree q => q = p | OStore q _ _ => q = p | _ => False end.

(* ---------------- proofs ---------------- *)
Lemma put_list_other vs : forall h a c, (c < a \/ a + Z.of_nat (length vs) <= c) -> cell (put_list h a vs) c = cell h c.
Proof.
  induction vs as [|v vs IH]; intros h a c H; cbn [put_list length] in *; [reflexivity|].
  rewrite IH by lia. cbn [put cell]. destruct (Z.eqb_spec c a); [lia|reflexivity].
Qed.
Lemma put_list_at vs : forall h a i v, nth_error vs i = Some v -> cell (put_list h a vs) (a + Z.of_nat i) = Some v.
Proof.
  induction vs as [|w vs IH]; intros h a i v H; [destruct i; cbn in H; congruence|].
  cbn [put_list]. destruct i as [|i]; cbn [nth_error] in H.
  - injection H as ->. rewrite put_list_other by lia. cbn [put cell]. rewrite Z.add_0_r, Z.eqb_refl. reflexivity.
  - replace (a + Z.of_nat (S i)) with (a + 1 + Z.of_nat i) by lia. apply IH. assumption.
Qed.
Lemma put_list_alloc vs : forall h a, ALLOC (put_list h a vs) = ALLOC h.
Proof. induction vs as [|v vs IH]; intros h a; cbn [put_list]; [reflexivity|]. rewrite IH. reflexivity. Qed.
Lemma zeros_other k : forall h a c, (c < a \/ a + Z.of_nat k <= c) -> cell (zeros h a k) c = cell h c.
Proof.
  induction k as [|k IH]; intros h a c H; cbn [zeros]; [reflexivity|].
  rewrite IH by lia. cbn [put cell]. destruct (Z.eqb_spec c a); [lia|reflexivity].
Qed.
Lemma zeros_at k : forall h a c, a <= c < a + Z.of_nat k -> cell (zeros h a k) c = Some 0.
Proof.
  induction k as [|k IH]; intros h a c H; [lia|]. cbn [zeros].
  destruct (Z.eq_dec c a) as [->|]; [|apply IH; lia].
  rewrite zeros_other by lia. cbn [put cell]. rewrite Z.eqb_refl. reflexivity.
Qed.
Lemma zeros_alloc k : forall h a, ALLOC (zeros h a k) = ALLOC h.
Proof. induction k as [|k IH]; intros h a; cbn [zeros]; [reflexivity|]. rewrite IH. reflexivity. Qed.
Lemma unset_from_other k : forall h a c, (c < a \/ a + Z.of_nat k <= c) -> cell (unset_from k a h) c = cell h c.
Proof.
  induction k as [|k IH]; intros h a c H; cbn [unset_from]; [reflexivity|].
  rewrite IH by lia. cbn [unset cell]. destruct (Z.eqb_spec c a); [lia|reflexivity].
Qed.
Lemma unset_from_at k : forall h a c, a <= c < a + Z.of_nat k -> cell (unset_from k a h) c = None.
Proof.
  induction k as [|k IH]; intros h a c H; [lia|]. cbn [unset_from].
  destruct (Z.eq_dec c a) as [->|]; [|apply IH; lia].
  rewrite unset_from_other by lia. cbn [unset cell]. rewrite Z.eqb_refl. reflexivity.
Qed.
Lemma unset_from_alloc k : forall h a, ALLOC (unset_from k a h) = ALLOC h.
Proof. induction k as [|k IH]; intros h a; cbn [unset_from]; [reflexivity|]. rewrite IH. reflexivity. Qed.

(* [hd]: the header cell of an object, if the variant has one *)
Definition hd (tag : bool) : Z := if tag then 1 else 0.
Definition okobj (tag : bool) (h : heap) (o : Z * Z) : Prop :=
  0 <= snd o /\ 1 + hd tag <= fst o /\ fst o + snd o <= ALLOC h /\
  (tag = true -> cell h (fst o - 1) = Some (snd o)).
(* extents including headers *)
Definition sep (tag : bool) (a b : Z * Z) : Prop :=
  fst a + snd a <= fst b - hd tag \/ fst b + snd b <= fst a - hd tag.
Definition inv (tag : bool) (x : heap * objs) : Prop :=
  1 <= ALLOC (fst x) /\
  Forall (okobj tag (fst x)) (snd x) /\ ForallOrdPairs (sep tag) (snd x).

Lemma sep_sym tag a b : sep tag a b -> sep tag b a.
Proof. unfold sep. tauto. Qed.

Lemma fop_remove {A} (R : A -> A -> Prop) a x b : ForallOrdPairs R (a ++ x :: b) -> ForallOrdPairs R (a ++ b).
Proof.
  induction a as [|y a IH]; cbn [app]; intros H; inversion H; subst; [assumption|].
  constructor; [|auto]. apply Forall_app in H2. destruct H2 as [H4 H5]. inversion H5; subst.
  apply Forall_app. auto.
Qed.
Lemma fop_mid {A} (R : A -> A -> Prop) (Rs : forall x y, R x y -> R y x) a x b :
  ForallOrdPairs R (a ++ x :: b) -> Forall (R x) (a ++ b).
Proof.
  induction a as [|y a IH]; cbn [app]; intros H; inversion H; subst; [assumption|].
  constructor; [|auto]. apply Forall_app in H2. destruct H2 as [H4 H5]. inversion H5; subst. auto.
Qed.
Lemma Forall_rem {A} (P : A -> Prop) a x b : Forall P (a ++ x :: b) -> P x /\ Forall P (a ++ b).
Proof. rewrite !Forall_app. intros [H1 H2]. inversion H2; subst. auto. Qed.

(* allocation of [n] cells, and any writes within them and the cell after *)
Lemma new_ok tag h l n h' : inv tag (h, l) -> 0 <= n ->
  ALLOC h' = ALLOC h + (n + hd tag) ->
  (tag = true -> cell h' (ALLOC h) = Some n) ->
  (forall c, c < ALLOC h -> cell h' c = cell h c) ->
  inv tag (h', (ALLOC h + hd tag, n) :: l).
Proof.
  intros (H1 & H2 & H3) Hn Ha Ht Hc. cbn [fst snd] in *.
  assert (Hh : 0 <= hd tag <= 1) by (unfold hd; destruct tag; lia).
  repeat split; cbn [fst snd].
  - lia.
  - constructor.
    + repeat split; cbn [fst snd]; try lia. intros E. rewrite <- Ht by assumption. f_equal. subst tag. cbn [hd]. lia.
    + eapply Forall_impl; [|exact H2]. intros o (O1 & O2 & O3 & O4). repeat split; try lia.
      intros E. rewrite Hc; [auto|]. subst tag. cbn [hd] in *. lia.
  - constructor; [|assumption]. eapply Forall_impl; [|exact H2]. intros o (O1 & O2 & O3 & O4).
    right. cbn [fst snd]. lia.
Qed.

Lemma malloc_parts tag h n : fst (rt_malloc tag h n) = ALLOC h + hd tag /\
  ALLOC (snd (rt_malloc tag h n)) = ALLOC h + (n + hd tag) /\
  (tag = true -> cell (snd (rt_malloc tag h n)) (ALLOC h) = Some n) /\
  (forall c, c <> ALLOC h -> cell (snd (rt_malloc tag h n)) c = cell h c).
Proof.
  unfold rt_malloc, hd. destruct tag; cbn [fst snd ALLOC cell put]; repeat split; try lia; auto; try congruence.
  - intros _. rewrite Z.eqb_refl. reflexivity.
  - intros c Hc. destruct (Z.eqb_spec c (ALLOC h)); [contradiction|reflexivity].
Qed.
Lemma malloc_low tag h n c : c < ALLOC h -> cell (snd (rt_malloc tag h n)) c = cell h c.
Proof. destruct (malloc_parts tag h n) as (_ & _ & _ & H). intros. apply H. lia. Qed.

Lemma defarr_eq tag h len vs : rt_defarr tag h len vs =
  (fst (rt_malloc tag h len), match vs with [] => snd (rt_malloc tag h len)
     | _ => rt_initialize (snd (rt_malloc tag h len)) (fst (rt_malloc tag h len)) len vs end).
Proof. unfold rt_defarr. destruct (rt_malloc tag h len). reflexivity. Qed.
Lemma defstr_eq tag h bytes size : rt_defstr tag h bytes size =
  (fst (rt_malloc tag h size),
   zeros (put_list (snd (rt_malloc tag h size)) (fst (rt_malloc tag h size)) bytes)
     (fst (rt_malloc tag h size) + Z.of_nat (length bytes)) (Z.to_nat (size - Z.of_nat (length bytes) + 1))).
Proof. unfold rt_defstr. destruct (rt_malloc tag h size). reflexivity. Qed.

Lemma init_other h p len vs c : Z.of_nat (length vs) <= len -> (c < p \/ p + len <= c) ->
  cell (rt_initialize h p len vs) c = cell h c.
Proof.
  intros Hl Hc. unfold rt_initialize. rewrite zeros_other by lia. apply put_list_other. lia.
Qed.
Lemma init_alloc h p len vs : ALLOC (rt_initialize h p len vs) = ALLOC h.
Proof. unfold rt_initialize. rewrite zeros_alloc. apply put_list_alloc. Qed.

Lemma free_parts tag h p n h' : rt_free tag h p = Some h' -> 0 <= n -> (tag = true -> cell h (p - 1) = Some n) ->
  ALLOC h' = ALLOC h /\ (forall c, (c < p - hd tag \/ p + n <= c) -> cell h' c = cell h c).
Proof.
  unfold rt_free, hd. destruct tag; intros H Hn Hc.
  - rewrite (Hc eq_refl) in H. injection H as <-. rewrite unset_from_alloc. split; auto.
    intros c Hd. apply unset_from_other. lia.
  - injection H as <-. auto.
Qed.

Lemma step_inv tag o x y : step tag o x y -> inv tag x -> inv tag y.
Proof.
  intros H Hi.
  assert (Hh : 0 <= hd tag <= 1) by (unfold hd; destruct tag; lia).
  destruct H as [h l n Hn|h h' a b p n Hf|h l p n i v Hin Hr|h l len vs Hl|h l bytes size Hl].
  - destruct (malloc_parts tag h n) as (M1 & M2 & M3 & M4). rewrite M1.
    apply (new_ok tag h l n); auto. intros c Hc. apply malloc_low. assumption.
  - destruct Hi as (I1 & I2 & I3). cbn [fst snd] in *.
    apply Forall_rem in I2. destruct I2 as [(O1 & O2 & O3 & O4) I2]. cbn [fst snd] in *.
    pose proof (fop_mid _ (sep_sym tag) _ _ _ I3) as Is.
    destruct (free_parts tag h p n h' Hf O1 O4) as (F1 & F2).
    repeat split; cbn [fst snd]; [lia| |eapply fop_remove; eassumption].
    rewrite Forall_forall in *. intros o Ho. destruct (I2 o Ho) as (P1 & P2 & P3 & P4).
    repeat split; try lia. intros E. rewrite F2; [auto|].
    destruct (Is o Ho) as [S|S]; cbn [fst snd] in S; subst tag; cbn [hd] in *; lia.
  - destruct Hi as (I1 & I2 & I3). repeat split; cbn [fst snd put ALLOC] in *; auto.
    assert (Hs : forall o, In o l -> o = (p, n) \/ sep tag o (p, n)).
    { clear I1 I2 v. revert Hin I3. induction l as [|q l IH]; [intros []|]. intros Hin I3 o Ho.
      inversion I3; subst. rewrite Forall_forall in H1.
      destruct Hin as [Hin|Hin], Ho as [Ho|Ho]; subst; auto.
      - right. apply sep_sym. auto. }
    rewrite Forall_forall in *. intros o Ho. destruct (I2 o Ho) as (P1 & P2 & P3 & P4).
    repeat split; cbn [put ALLOC cell]; try lia. intros E.
    destruct (Z.eqb_spec (fst o - 1) (p + i)) as [Eq|]; [|auto]. exfalso.
    destruct (I2 _ Hin) as (Q1 & Q2 & Q3 & Q4). cbn [fst snd] in *.
    destruct (Hs o Ho) as [->|[S|S]]; cbn [fst snd] in *; subst tag; cbn [hd] in *; lia.
  - rewrite defarr_eq. cbn [fst snd]. destruct (malloc_parts tag h len) as (M1 & M2 & M3 & M4).
    assert (0 <= len) by lia. rewrite M1.
    destruct vs as [|v vs].
    + apply (new_ok tag h l len); auto. intros c Hc. apply malloc_low. assumption.
    + apply (new_ok tag h l len); auto.
      * rewrite init_alloc. assumption.
      * intros E. rewrite init_other; [auto|assumption|]. subst tag. cbn [hd]. lia.
      * intros c Hc. rewrite init_other by (try assumption; lia). apply malloc_low. assumption.
  - rewrite defstr_eq. cbn [fst snd]. destruct (malloc_parts tag h size) as (M1 & M2 & M3 & M4).
    rewrite M1. apply (new_ok tag h l size); auto; try lia.
    + rewrite zeros_alloc, put_list_alloc. assumption.
    + intros E. rewrite zeros_other, put_list_other; auto; subst tag; cbn [hd]; lia.
    + intros c Hc. rewrite zeros_other, put_list_other by lia. apply malloc_low. assumption.
Qed.

Lemma inv0 tag : inv tag (heap0, []).
Proof. repeat split; cbn; try lia; constructor. Qed.
Lemma steps_inv tag os x y : steps tag os x y -> inv tag x -> inv tag y.
Proof. induction 1; eauto using step_inv. Qed.

(* One step leaves the cells of every other live object alone. *)
Lemma step_keeps tag o x y : step tag o x y -> inv tag x ->
  forall p n, In (p, n) (snd x) -> 0 < n -> ~ targets o p ->
  In (p, n) (snd y) /\ forall c, p <= c < p + n -> cell (fst y) c = cell (fst x) c.
Proof.
  intros H Hi p0 n0 Hin0 Hpos Ht.
  assert (Hh : 0 <= hd tag <= 1) by (unfold hd; destruct tag; lia).
  destruct H as [h l n Hn|h h' a b p n Hf|h l p n i v Hin Hr|h l len vs Hl|h l bytes size Hl];
    cbn [fst snd targets] in *.
  - destruct Hi as (I1 & I2 & I3). rewrite Forall_forall in I2. destruct (I2 _ Hin0) as (O1 & O2 & O3 & O4).
    cbn [fst snd] in *. split; [right; assumption|]. intros c Hc. apply malloc_low. lia.
  - destruct Hi as (I1 & I2 & I3). cbn [fst snd] in *.
    apply Forall_rem in I2. destruct I2 as [(O1 & O2 & O3 & O4) I2]. cbn [fst snd] in *.
    pose proof (fop_mid _ (sep_sym tag) _ _ _ I3) as Is.
    destruct (free_parts tag h p n h' Hf O1 O4) as (F1 & F2).
    assert (Hin1 : In (p0, n0) (a ++ b)).
    { rewrite in_app_iff in *. destruct Hin0 as [|[E|]]; auto. exfalso. apply Ht. congruence. }
    split; [assumption|]. intros c Hc. apply F2.
    rewrite Forall_forall in Is. destruct (Is _ Hin1) as [S|S]; cbn [fst snd] in S; lia.
  - split; [assumption|]. intros c Hc. cbn [put cell].
    destruct (Z.eqb_spec c (p + i)) as [->|]; [|reflexivity]. exfalso.
    destruct Hi as (I1 & I2 & I3). cbn [fst snd] in *.
    assert (Hs : (p0, n0) = (p, n) \/ sep tag (p0, n0) (p, n)).
    { clear - Hin Hin0 I3. revert Hin Hin0 I3. induction l as [|q l IH]; [intros []|]. intros Hin Ho I3.
      inversion I3; subst. rewrite Forall_forall in H1.
      destruct Hin as [Hin|Hin], Ho as [Ho|Ho]; subst; auto.
      - right. apply sep_sym. auto. }
    destruct Hs as [E|[S|S]]; [injection E as -> ->; auto| |]; cbn [fst snd] in *; lia.
  - destruct Hi as (I1 & I2 & I3). rewrite Forall_forall in I2. destruct (I2 _ Hin0) as (O1 & O2 & O3 & O4).
    cbn [fst snd] in *. rewrite defarr_eq. cbn [fst snd].
    destruct (malloc_parts tag h len) as (M1 & M2 & M3 & M4).
    split; [right; assumption|]. intros c Hc. destruct vs as [|v vs].
    + apply malloc_low. lia.
    + rewrite init_other by (try assumption; lia). apply malloc_low. lia.
  - destruct Hi as (I1 & I2 & I3). rewrite Forall_forall in I2. destruct (I2 _ Hin0) as (O1 & O2 & O3 & O4).
    cbn [fst snd] in *. rewrite defstr_eq. cbn [fst snd].
    destruct (malloc_parts tag h size) as (M1 & M2 & M3 & M4).
    split; [right; assumption|]. intros c Hc. rewrite zeros_other, put_list_other by lia. apply malloc_low. lia.
Qed.

Lemma steps_keeps tag os x y p n : steps tag os x y -> inv tag x ->
  In (p, n) (snd x) -> 0 < n -> (forall o, In o os -> ~ targets o p) ->
  In (p, n) (snd y) /\ forall c, p <= c < p + n -> cell (fst y) c = cell (fst x) c.
Proof.
  intros H2. induction H2 as [x|o os x y z Hs _ IH]; intros Hi Hin Hn Ht; [auto|].
  destruct (step_keeps tag o x y Hs Hi p n Hin Hn) as [K1 K2]; [apply Ht; left; reflexivity|].
  destruct IH as [K3 K4]; auto.
  - eapply step_inv; eassumption.
  - intros o' Ho. apply Ht. right. assumption.
  - split; [assumption|]. intros c Hc. rewrite K4, K2; auto.
Qed.

(* ---------------- theorems ---------------- *)

(* Live objects never share a cell, and no object is at the null address. *)
Theorem c22_disjoint : forall tag os h l, steps tag os (heap0, []) (h, l) ->
  ForallOrdPairs apart l /\ (forall p n, In (p, n) l -> 0 < p).
Proof.
  intros tag os h l H. pose proof (steps_inv tag os _ _ H (inv0 tag)) as (I1 & I2 & I3). cbn [fst snd] in *.
  assert (Hh : 0 <= hd tag) by (unfold hd; destruct tag; lia).
  split.
  - clear I1 I2 H. induction I3 as [|a l Ha _ IH]; constructor; auto.
    eapply Forall_impl; [|exact Ha]. intros b [S|S] c; lia.
  - intros p n Hp. rewrite Forall_forall in I2. destruct (I2 _ Hp) as (_ & O2 & _). cbn [fst] in O2. lia.
Qed.

(* Whatever happens between two moments, an object that is not itself written
   or freed keeps its contents. *)
Theorem c22_contents_kept : forall tag os1 os2 h1 l1 h2 l2 p n,
  steps tag os1 (heap0, []) (h1, l1) -> steps tag os2 (h1, l1) (h2, l2) ->
  In (p, n) l1 -> 0 < n -> (forall o, In o os2 -> ~ targets o p) ->
  In (p, n) l2 /\ forall c, p <= c < p + n -> cell h2 c = cell h1 c.
Proof.
  intros tag os1 os2 h1 l1 h2 l2 p n H1 H2 Hin Hn Ht.
  pose proof (steps_inv tag os1 _ _ H1 (inv0 tag)) as Hi. clear H1 os1.
  exact (steps_keeps tag os2 (h1, l1) (h2, l2) p n H2 Hi Hin Hn Ht).
Qed.

(* Freeing succeeds, and unsets cells of the object (or its size tag) only. *)
Theorem c22_free : forall tag os h l p n, steps tag os (heap0, []) (h, l) -> In (p, n) l ->
  exists h', rt_free tag h p = Some h' /\
  forall c, cell h' c <> cell h c -> (tag = true /\ c = p - 1) \/ p <= c < p + n.
Proof.
  intros tag os h l p n H Hin. pose proof (steps_inv tag os _ _ H (inv0 tag)) as (I1 & I2 & I3). cbn [fst snd] in *.
  rewrite Forall_forall in I2. destruct (I2 _ Hin) as (O1 & O2 & O3 & O4). cbn [fst snd] in *.
  assert (exists h', rt_free tag h p = Some h') as [h' Hf].
  { unfold rt_free. destruct tag; [rewrite (O4 eq_refl)|]; eexists; reflexivity. }
  exists h'. split; [assumption|]. intros c Hc.
  destruct (free_parts tag h p n h' Hf O1 O4) as [_ F]. unfold hd in F. destruct tag.
  - destruct (Z.eq_dec c (p - 1)) as [->|]; [auto|]. right.
    destruct (Z_lt_dec c p); [exfalso; apply Hc, F; lia|].
    destruct (Z_lt_dec c (p + n)); [lia|]. exfalso. apply Hc, F. lia.
  - right. destruct (Z_lt_dec c p); [exfalso; apply Hc, F; lia|].
    destruct (Z_lt_dec c (p + n)); [lia|]. exfalso. apply Hc, F. lia.
Qed.

(* File-level arrays and strings get their initial contents. *)
Theorem c22_initialised : forall tag h,
  (forall len vs, Z.of_nat (length vs) <= len -> vs <> [] ->
     let (p, h') := rt_defarr tag h len vs in forall i, 0 <= i < len ->
     cell h' (p + i) = Some (match nth_error vs (Z.to_nat i) with Some v => v | None => 0 end)) /\
  (forall bytes size, Z.of_nat (length bytes) < size ->
     let (p, h') := rt_defstr tag h bytes size in forall i, 0 <= i < size ->
     cell h' (p + i) = Some (match nth_error bytes (Z.to_nat i) with Some v => v | None => 0 end)).
Proof.
  intros tag h. split.
  - intros len vs Hl Hne. rewrite defarr_eq. destruct (malloc_parts tag h len) as (M1 & M2 & M3 & M4).
    set (p := fst (rt_malloc tag h len)) in *. intros i Hi.
    destruct vs as [|v0 vs0]; [congruence|]. set (vs := v0 :: vs0) in *. unfold rt_initialize.
    destruct (nth_error vs (Z.to_nat i)) as [v|] eqn:E.
    + assert (Z.to_nat i < length vs)%nat by (apply nth_error_Some; congruence).
      rewrite zeros_other by lia. replace (p + i) with (p + Z.of_nat (Z.to_nat i)) by lia.
      apply put_list_at. assumption.
    + apply nth_error_None in E. apply zeros_at. lia.
  - intros bytes size Hl. rewrite defstr_eq.
    set (p := fst (rt_malloc tag h size)) in *. intros i Hi.
    destruct (nth_error bytes (Z.to_nat i)) as [v|] eqn:E.
    + assert (Z.to_nat i < length bytes)%nat by (apply nth_error_Some; congruence).
      rewrite zeros_other by lia. replace (p + i) with (p + Z.of_nat (Z.to_nat i)) by lia.
      apply put_list_at. assumption.
    + apply nth_error_None in E. apply zeros_at. lia.
Qed.

(* "Freed cells are exactly the object's cells" is false: the last cell of the
   object stays set, because the size tag is counted in the loop bound. *)
Theorem c22_free_all_refuted : forall h n, 0 < n ->
  let (p, h1) := rt_malloc true h n in
  forall v, exists h2, rt_free true (put h1 (p + n - 1) v) p = Some h2 /\ cell h2 (p + n - 1) = Some v.
Proof.
  intros h n Hn. destruct (malloc_parts true h n) as (M1 & M2 & M3 & M4).
  destruct (rt_malloc true h n) as [p h1]. cbn [fst snd hd] in *. intros v.
  unfold rt_free. cbn [put cell].
  destruct (Z.eqb_spec (p - 1) (p + n - 1)); [lia|].
  replace (p - 1) with (ALLOC h) by lia. rewrite (M3 eq_refl).
  eexists. split; [reflexivity|]. rewrite unset_from_other by lia. cbn [cell put].
  rewrite Z.eqb_refl. reflexivity.
Qed.

(* The string initialiser writes one cell past its object: harmless, since that
   cell belongs to no live object, but the cell becomes set. *)
Theorem c22_defstr_past_end : forall h bytes size, Z.of_nat (length bytes) < size ->
  let (p, h') := rt_defstr true h bytes size in
  cell h' (p + size) = Some 0 /\ ALLOC h' = p + size.
Proof.
  intros h bytes size Hl. rewrite defstr_eq. destruct (malloc_parts true h size) as (M1 & M2 & M3 & M4).
  split.
  - apply zeros_at. lia.
  - rewrite zeros_alloc, put_list_alloc, M2, M1. cbn [hd]. lia.
Qed.

(* Non-vacuity: a history with several objects, a free and a string. *)
Example c22_history : exists h l,
  steps true [OMalloc 3; OStore 2 1 7; OMalloc 2; OFree 2; ODefstr [65; 66] 4; OStore 6 0 9] (heap0, []) (h, l) /\
  l = [(9, 4); (6, 2)] /\ cell h 6 = Some 9 /\ cell h 10 = Some 66.
Proof.
  eexists _, _. split; [|split; [|split]].
  - eapply StepsS; [apply StMalloc; lia|].
    eapply StepsS; [eapply (StStore _ _ _ 2 3 1 7); [left; reflexivity|lia]|].
    eapply StepsS; [apply StMalloc; lia|].
    eapply StepsS; [eapply (StFree true _ _ [(6, 2)] [] 2 3); reflexivity|].
    eapply StepsS; [eapply (StDefstr true _ _ [65; 66] 4); cbn; lia|].
    eapply StepsS; [eapply (StStore _ _ _ 6 2 0 9); [right; left; reflexivity|lia]|].
    apply Steps0.
  - reflexivity.
  - vm_compute. reflexivity.
  - vm_compute. reflexivity.
Qed.
