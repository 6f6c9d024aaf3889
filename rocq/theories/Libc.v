(** * portable_libc/src/string.c: memory and string functions

    Memory is a total map from addresses to [char] values (signed 8-bit, as on every target
    of pnut); addresses are unbounded integers, [size_t] arguments are naturals.  Loops whose
    end is decided by memory contents carry fuel; [None] means the loop has not ended. *)
From Coq Require Import ZArith List Lia Bool.
From Verif Require Import Base.
Import ListNotations.
Open Scope Z_scope.

Definition mem := Z -> Z.

(** Conversion of an int to [char]. *)
Definition to_char (z : Z) : Z := (z + 128) mod 256 - 128.

(** ** Model *)

(** string.c:3-14 [memset]. *)
Fixpoint memset (m : mem) (s c : Z) (n : nat) : mem :=
  match n with
  | O => m
  | S n' => memset (upd m s (to_char c)) (s + 1) c n'
  end.

(** string.c:16-29 [memcpy]. *)
Fixpoint memcpy (m : mem) (d s : Z) (n : nat) : mem :=
  match n with
  | O => m
  | S n' => memcpy (upd m d (m s)) (d + 1) (s + 1) n'
  end.

(** string.c:43-47, the descending loop of [memmove]. *)
Fixpoint memmove_down (m : mem) (d s : Z) (n : nat) : mem :=
  match n with
  | O => m
  | S n' => memmove_down (upd m (d + Z.of_nat n') (m (s + Z.of_nat n'))) d s n'
  end.

(** string.c:31-51 [memmove]; its ascending loop is the one of [memcpy]. *)
Definition memmove (m : mem) (d s : Z) (n : nat) : mem :=
  if d <? s then memcpy m d s n else memmove_down m d s n.

(** string.c:53-65 [memcmp]. *)
Fixpoint memcmp (m : mem) (l r : Z) (n : nat) : Z :=
  match n with
  | O => 0
  | S n' => if m l =? m r then memcmp m (l + 1) (r + 1) n'
            else Z.land (m l) 255 - Z.land (m r) 255
  end.

(** string.c:67-74 [strlen]: the scan returns [end], the function [end - s]. *)
Fixpoint strlen_scan (fuel : nat) (m : mem) (e : Z) : option Z :=
  match fuel with
  | O => None
  | S f => if m e =? 0 then Some e else strlen_scan f m (e + 1)
  end.
Definition strlen (fuel : nat) (m : mem) (s : Z) : option Z :=
  match strlen_scan fuel m s with Some e => Some (e - s) | None => None end.

(** string.c:76-87 [strcpy]: assignment first, then the test on the value assigned. *)
Fixpoint strcpy (fuel : nat) (m : mem) (d s : Z) : option mem :=
  match fuel with
  | O => None
  | S f => let c := m s in
           let m' := upd m d c in
           if c =? 0 then Some m' else strcpy f m' (d + 1) (s + 1)
  end.

(** string.c:89-92 [strcat]. *)
Definition strcat (fuel : nat) (m : mem) (d s : Z) : option mem :=
  match strlen fuel m d with
  | Some n => strcpy fuel m (d + n) s
  | None => None
  end.

(** string.c:94-102 [strchr]; 0 is the null pointer. *)
Fixpoint strchr (fuel : nat) (m : mem) (s c : Z) : option Z :=
  match fuel with
  | O => None
  | S f => if m s =? 0 then Some (if c =? 0 then s else 0)
           else if m s =? c then Some s
           else strchr f m (s + 1) c
  end.

(** string.c:104-114 [strrchr]. *)
Fixpoint strrchr_loop (fuel : nat) (m : mem) (s c result : Z) : option Z :=
  match fuel with
  | O => None
  | S f => if m s =? 0 then Some (if c =? 0 then s else result)
           else strrchr_loop f m (s + 1) c (if m s =? c then s else result)
  end.
Definition strrchr (fuel : nat) (m : mem) (s c : Z) : option Z := strrchr_loop fuel m s c 0.

(** string.c:116-124 [strcmp]. *)
Fixpoint strcmp (fuel : nat) (m : mem) (l r : Z) : option Z :=
  match fuel with
  | O => None
  | S f => if (m l =? m r) && negb (m l =? 0) then strcmp f m (l + 1) (r + 1)
           else Some (Z.land (m l) 255 - Z.land (m r) 255)
  end.

(** ** Specification *)

(** Every cell holds a [char]. *)
Definition chars (m : mem) : Prop := forall x, -128 <= m x < 128.

(** The C string [s] (without its NUL) is stored at [p]. *)
Definition cstr (m : mem) (p : Z) (s : list Z) : Prop :=
  Forall (fun c => c <> 0) s /\
  (forall i, 0 <= i < Z.of_nat (length s) -> m (p + i) = nth (Z.to_nat i) s 0) /\
  m (p + Z.of_nat (length s)) = 0.

(** The value of a char read as unsigned char, as the comparison functions must. *)
Definition uchar (c : Z) : Z := c mod 256.

(** ** Proofs *)
Lemma to_char_range z : -128 <= to_char z < 128.
Proof. unfold to_char. pose proof (Z.mod_pos_bound (z+128) 256 ltac:(lia)). lia. Qed.

Lemma land255 c : Z.land c 255 = uchar c.
Proof. unfold uchar. change 255 with (Z.ones 8). rewrite Z.land_ones by lia. reflexivity. Qed.

Lemma memset_ok n : forall m s c x,
  memset m s c n x = if (s <=? x) && (x <? s + Z.of_nat n) then to_char c else m x.
Proof.
  induction n as [|n IH]; intros; cbn [memset].
  - bdestr; cbn [andb]; try lia; reflexivity.
  - rewrite IH. unfold upd. bdestr; cbn [andb]; try lia; reflexivity.
Qed.

Lemma memcpy_ok n : forall m d s, (d <= s \/ s + Z.of_nat n <= d) -> forall x,
  memcpy m d s n x = if (d <=? x) && (x <? d + Z.of_nat n) then m (s + (x - d)) else m x.
Proof.
  induction n as [|n IH]; intros m d s H x; cbn [memcpy].
  - bdestr; cbn [andb]; try lia; reflexivity.
  - rewrite IH by lia. unfold upd.
    bdestr; cbn [andb]; subst; try lia; try (f_equal; lia).
Qed.

Lemma memmove_down_ok n : forall m d s, s <= d -> forall x,
  memmove_down m d s n x = if (d <=? x) && (x <? d + Z.of_nat n) then m (s + (x - d)) else m x.
Proof.
  induction n as [|n IH]; intros m d s H x; cbn [memmove_down].
  - bdestr; cbn [andb]; try lia; reflexivity.
  - rewrite IH by lia. unfold upd.
    bdestr; cbn [andb]; subst; try lia; try (f_equal; lia).
Qed.

Lemma memmove_ok n m d s x :
  memmove m d s n x = if (d <=? x) && (x <? d + Z.of_nat n) then m (s + (x - d)) else m x.
Proof.
  unfold memmove. destruct (Z.ltb_spec d s).
  - apply memcpy_ok. lia.
  - apply memmove_down_ok. lia.
Qed.

Lemma memcmp_eq n : forall m l r,
  (forall i, 0 <= i < Z.of_nat n -> m (l + i) = m (r + i)) -> memcmp m l r n = 0.
Proof.
  induction n as [|n IH]; intros m l r H; cbn [memcmp]; [reflexivity|].
  pose proof (H 0 ltac:(lia)) as H0. rewrite !Z.add_0_r in H0. rewrite H0, Z.eqb_refl.
  apply IH. intros i Hi. specialize (H (i+1) ltac:(lia)).
  replace (l + 1 + i) with (l + (i + 1)) by lia. replace (r + 1 + i) with (r + (i + 1)) by lia. exact H.
Qed.

Lemma memcmp_diff n : forall m l r k, 0 <= k < Z.of_nat n ->
  (forall i, 0 <= i < k -> m (l + i) = m (r + i)) -> m (l + k) <> m (r + k) ->
  memcmp m l r n = uchar (m (l + k)) - uchar (m (r + k)).
Proof.
  induction n as [|n IH]; intros m l r k Hk H Hd; cbn [memcmp]; [lia|].
  destruct (Z.eqb_spec (m l) (m r)) as [E|E].
  - assert (k <> 0) by (intros ->; rewrite !Z.add_0_r in Hd; congruence).
    rewrite (IH m (l+1) (r+1) (k-1)); try lia.
    + replace (l + 1 + (k - 1)) with (l + k) by lia. replace (r + 1 + (k - 1)) with (r + k) by lia. reflexivity.
    + intros i Hi. specialize (H (i+1) ltac:(lia)).
      replace (l + 1 + i) with (l + (i + 1)) by lia. replace (r + 1 + i) with (r + (i + 1)) by lia. exact H.
    + replace (l + 1 + (k - 1)) with (l + k) by lia. replace (r + 1 + (k - 1)) with (r + k) by lia. exact Hd.
  - assert (k = 0).
    { destruct (Z.eq_dec k 0); [assumption|]. exfalso. apply E.
      specialize (H 0 ltac:(lia)). now rewrite !Z.add_0_r in H. }
    subst k. rewrite !land255, !Z.add_0_r. reflexivity.
Qed.

Lemma uchar_diff_nonzero a b : -128 <= a < 128 -> -128 <= b < 128 -> a <> b -> uchar a <> uchar b.
Proof.
  unfold uchar. intros Ha Hb Hn E. apply Hn.
  assert (forall z, -128 <= z < 128 -> z = (z mod 256 + 128) mod 256 - 128) as K.
  { intros z Hz. rewrite Z.add_mod_idemp_l by lia. rewrite Z.mod_small; lia. }
  rewrite (K a Ha), (K b Hb), E. reflexivity.
Qed.

Lemma cstr_cons m p c s : cstr m p (c :: s) <-> c <> 0 /\ m p = c /\ cstr m (p + 1) s.
Proof.
  unfold cstr. cbn [length]. rewrite Nat2Z.inj_succ. split.
  - intros (F & R & N). inversion F; subst. repeat split; auto.
    + specialize (R 0 ltac:(lia)). rewrite Z.add_0_r in R. exact R.
    + intros i Hi. specialize (R (i + 1) ltac:(lia)).
      replace (p + 1 + i) with (p + (i + 1)) by lia. rewrite R.
      replace (Z.to_nat (i + 1)) with (S (Z.to_nat i)) by lia. reflexivity.
    + replace (p + 1 + Z.of_nat (length s)) with (p + Z.succ (Z.of_nat (length s))) by lia. exact N.
  - intros (Hc & Hm & F & R & N). repeat split.
    + now constructor.
    + intros i Hi. destruct (Z.eq_dec i 0) as [->|].
      * rewrite Z.add_0_r. exact Hm.
      * specialize (R (i - 1) ltac:(lia)). replace (p + 1 + (i - 1)) with (p + i) in R by lia.
        rewrite R. replace (Z.to_nat i) with (S (Z.to_nat (i - 1))) by lia. reflexivity.
    + replace (p + Z.succ (Z.of_nat (length s))) with (p + 1 + Z.of_nat (length s)) by lia. exact N.
Qed.

Lemma cstr_nil m p : cstr m p [] <-> m p = 0.
Proof.
  unfold cstr. cbn [length]. change (Z.of_nat 0) with 0. rewrite Z.add_0_r.
  split; [tauto|]. intros; repeat split; auto. intros; lia.
Qed.

Lemma cstr_ext m m' s : forall p,
  (forall x, p <= x <= p + Z.of_nat (length s) -> m x = m' x) -> cstr m p s -> cstr m' p s.
Proof.
  intros p E (F & R & N). repeat split; auto.
  - intros i Hi. rewrite <- E by lia. now apply R.
  - rewrite <- E by lia. exact N.
Qed.

Lemma strlen_scan_ok s : forall fuel m p, cstr m p s -> (length s < fuel)%nat ->
  strlen_scan fuel m p = Some (p + Z.of_nat (length s)).
Proof.
  induction s as [|c s IH]; intros fuel m p H Hf.
  - destruct fuel; [cbn in Hf; lia|]. apply cstr_nil in H. cbn [strlen_scan]. rewrite H. cbn [Z.eqb].
    cbn. f_equal. lia.
  - destruct fuel; [lia|]. apply cstr_cons in H as (Hc & Hm & H). cbn [strlen_scan]. rewrite Hm.
    destruct (Z.eqb_spec c 0); [contradiction|]. rewrite (IH fuel m (p+1) H).
    + f_equal. cbn [length]. lia.
    + cbn [length] in Hf. lia.
Qed.

Lemma strcpy_ok s : forall fuel m d p, cstr m p s -> (length s < fuel)%nat ->
  (d + Z.of_nat (length s) < p \/ p + Z.of_nat (length s) < d \/ d <= p) ->
  exists m', strcpy fuel m d p = Some m' /\ cstr m' d s /\
    (forall x, x < d \/ d + Z.of_nat (length s) < x -> m' x = m x).
Proof.
  induction s as [|c s IH]; intros fuel m d p H Hf Hd.
  - destruct fuel; [cbn in Hf; lia|]. apply cstr_nil in H. cbn [strcpy]. rewrite H.
    change (0 =? 0) with true. eexists; split; [reflexivity|]. split.
    + apply cstr_nil. apply upd_same.
    + cbn [length]. intros x Hx. apply upd_other. lia.
  - destruct fuel; [lia|]. apply cstr_cons in H as (Hc & Hm & H). cbn [strcpy]. rewrite Hm.
    destruct (Z.eqb_spec c 0); [contradiction|]. cbn [length] in *.
    destruct (IH fuel (upd m d c) (d+1) (p+1)) as (m' & E & C & F).
    + eapply cstr_ext; [|exact H]. intros x Hx. symmetry. apply upd_other. lia.
    + lia.
    + lia.
    + exists m'. split; [exact E|]. split.
      * apply cstr_cons. split; [assumption|]. split; [|exact C].
        rewrite F by lia. apply upd_same.
      * intros x Hx. rewrite F by lia. apply upd_other. lia.
Qed.

Lemma cstr_app m a b : forall p, (cstr m p (a ++ b) <->
  Forall (fun c => c <> 0) a /\
  (forall i, 0 <= i < Z.of_nat (length a) -> m (p + i) = nth (Z.to_nat i) a 0) /\
  cstr m (p + Z.of_nat (length a)) b).
Proof.
  induction a as [|c a IH]; intros p.
  - cbn [app length]. change (Z.of_nat 0) with 0. rewrite Z.add_0_r. split.
    + intros H. repeat split; auto; try apply H. intros; lia.
    + tauto.
  - cbn [app]. rewrite cstr_cons, IH. cbn [length]. rewrite Nat2Z.inj_succ. split.
    + intros (Hc & Hm & F & R & C). repeat split.
      * now constructor.
      * intros i Hi. destruct (Z.eq_dec i 0) as [->|].
        -- rewrite Z.add_0_r. exact Hm.
        -- specialize (R (i - 1) ltac:(lia)). replace (p + 1 + (i - 1)) with (p + i) in R by lia.
           rewrite R. replace (Z.to_nat i) with (S (Z.to_nat (i - 1))) by lia. reflexivity.
      * apply C.
      * intros i Hi. rewrite <- (proj1 (proj2 C) i Hi). f_equal. lia.
      * rewrite <- (proj2 (proj2 C)). f_equal. lia.
    + intros (F & R & C). inversion F; subst. repeat split; auto.
      * specialize (R 0 ltac:(lia)). now rewrite Z.add_0_r in R.
      * intros i Hi. specialize (R (i + 1) ltac:(lia)).
        replace (p + 1 + i) with (p + (i + 1)) by lia. rewrite R.
        replace (Z.to_nat (i + 1)) with (S (Z.to_nat i)) by lia. reflexivity.
      * apply C.
      * intros i Hi. rewrite <- (proj1 (proj2 C) i Hi). f_equal. lia.
      * rewrite <- (proj2 (proj2 C)). f_equal. lia.
Qed.

Lemma strcat_ok a b fuel m d p : cstr m d a -> cstr m p b -> (length a + length b < fuel)%nat ->
  (d + Z.of_nat (length a) + Z.of_nat (length b) < p \/
   p + Z.of_nat (length b) < d + Z.of_nat (length a)) ->
  exists m', strcat fuel m d p = Some m' /\ cstr m' d (a ++ b) /\
    (forall x, x < d \/ d + Z.of_nat (length a + length b) < x -> m' x = m x).
Proof.
  intros Ha Hb Hf Hd. unfold strcat, strlen. rewrite (strlen_scan_ok a _ _ _ Ha) by lia.
  replace (d + Z.of_nat (length a) - d) with (Z.of_nat (length a)) by lia.
  destruct (strcpy_ok b fuel m (d + Z.of_nat (length a)) p Hb) as (m' & E & C & F); [lia|lia|].
  exists m'. split; [exact E|]. split.
  - apply cstr_app. destruct Ha as (F1 & R & N). repeat split; auto.
    + intros i Hi. rewrite F by lia. now apply R.
    + apply C.
    + apply C.
    + apply C.
  - intros x Hx. apply F. lia.
Qed.

Lemma strchr_found s1 : forall fuel m p c s2, cstr m p (s1 ++ c :: s2) ->
  ~ In c s1 -> (length s1 < fuel)%nat ->
  strchr fuel m p c = Some (p + Z.of_nat (length s1)).
Proof.
  induction s1 as [|d s1 IH]; intros fuel m p c s2 H Hin Hf; (destruct fuel; [cbn in Hf; lia|]).
  - cbn [app] in H. apply cstr_cons in H as (Hc & Hm & H). cbn [strchr]. rewrite Hm.
    destruct (Z.eqb_spec c 0); [contradiction|]. rewrite Z.eqb_refl. f_equal. cbn. lia.
  - cbn [app] in H. apply cstr_cons in H as (Hc & Hm & H). cbn [strchr]. rewrite Hm.
    destruct (Z.eqb_spec d 0); [contradiction|]. destruct (Z.eqb_spec d c) as [->|].
    + exfalso. apply Hin. now left.
    + rewrite (IH fuel m (p+1) c s2 H).
      * f_equal. cbn [length]. lia.
      * intros ?. apply Hin. now right.
      * cbn [length] in Hf. lia.
Qed.

Lemma strchr_absent s : forall fuel m p c, cstr m p s ->
  ~ In c s -> (length s < fuel)%nat ->
  strchr fuel m p c = Some (if c =? 0 then p + Z.of_nat (length s) else 0).
Proof.
  induction s as [|d s IH]; intros fuel m p c H Hin Hf; (destruct fuel; [cbn in Hf; lia|]).
  - apply cstr_nil in H. cbn [strchr]. rewrite H. change (0 =? 0) with true. cbn [length].
    change (Z.of_nat 0) with 0. rewrite Z.add_0_r. reflexivity.
  - apply cstr_cons in H as (Hc & Hm & H). cbn [strchr]. rewrite Hm.
    destruct (Z.eqb_spec d 0); [contradiction|]. destruct (Z.eqb_spec d c) as [->|].
    + exfalso. apply Hin. now left.
    + rewrite (IH fuel m (p+1) c H).
      * cbn [length]. destruct (c =? 0); [|reflexivity]. f_equal. lia.
      * intros ?. apply Hin. now right.
      * cbn [length] in Hf. lia.
Qed.

Lemma strrchr_loop_absent s : forall fuel m p c r, cstr m p s ->
  ~ In c s -> (length s < fuel)%nat ->
  strrchr_loop fuel m p c r = Some (if c =? 0 then p + Z.of_nat (length s) else r).
Proof.
  induction s as [|d s IH]; intros fuel m p c r H Hin Hf; (destruct fuel; [cbn in Hf; lia|]).
  - apply cstr_nil in H. cbn [strrchr_loop]. rewrite H. change (0 =? 0) with true. cbn [length].
    change (Z.of_nat 0) with 0. rewrite Z.add_0_r. reflexivity.
  - apply cstr_cons in H as (Hc & Hm & H). cbn [strrchr_loop]. rewrite Hm.
    destruct (Z.eqb_spec d 0); [contradiction|]. destruct (Z.eqb_spec d c) as [->|].
    + exfalso. apply Hin. now left.
    + rewrite (IH fuel m (p+1) c r H).
      * cbn [length]. destruct (c =? 0); [|reflexivity]. f_equal. lia.
      * intros ?. apply Hin. now right.
      * cbn [length] in Hf. lia.
Qed.

Lemma strrchr_loop_found s1 : forall fuel m p c s2 r, cstr m p (s1 ++ c :: s2) ->
  ~ In c s2 -> (length s1 + length s2 + 1 < fuel)%nat ->
  strrchr_loop fuel m p c r = Some (p + Z.of_nat (length s1)).
Proof.
  induction s1 as [|d s1 IH]; intros fuel m p c s2 r H Hin Hf; (destruct fuel; [cbn in Hf; lia|]).
  - cbn [app] in H. apply cstr_cons in H as (Hc & Hm & H). cbn [strrchr_loop]. rewrite Hm.
    destruct (Z.eqb_spec c 0); [contradiction|]. rewrite Z.eqb_refl.
    rewrite (strrchr_loop_absent s2); auto; [|cbn [length] in Hf; lia].
    destruct (Z.eqb_spec c 0); [contradiction|]. f_equal. cbn. lia.
  - cbn [app] in H. apply cstr_cons in H as (Hc & Hm & H). cbn [strrchr_loop]. rewrite Hm.
    destruct (Z.eqb_spec d 0); [contradiction|].
    rewrite (IH fuel m (p+1) c s2 _ H Hin); [|cbn [length] in Hf; lia]. f_equal. cbn [length]. lia.
Qed.

Lemma strcmp_eq s : forall fuel m l r, cstr m l s -> cstr m r s -> (length s < fuel)%nat ->
  strcmp fuel m l r = Some 0.
Proof.
  induction s as [|c s IH]; intros fuel m l r Hl Hr Hf; (destruct fuel; [cbn in Hf; lia|]).
  - apply cstr_nil in Hl, Hr. cbn [strcmp]. rewrite Hl, Hr. reflexivity.
  - apply cstr_cons in Hl as (Hc & Hm & Hl), Hr as (_ & Hm' & Hr). cbn [strcmp]. rewrite Hm, Hm', Z.eqb_refl.
    destruct (Z.eqb_spec c 0); [contradiction|]. cbn [andb negb]. apply IH; auto. cbn [length] in Hf. lia.
Qed.

(** First difference of two different strings, the end counting as character 0. *)
Fixpoint first_diff (a b : list Z) : option (Z * Z) :=
  match a, b with
  | [], [] => None
  | [], y :: _ => Some (0, y)
  | x :: _, [] => Some (x, 0)
  | x :: a', y :: b' => if x =? y then first_diff a' b' else Some (x, y)
  end.

Lemma strcmp_diff a : forall fuel b m l r x y, cstr m l a -> cstr m r b ->
  (length a < fuel)%nat -> first_diff a b = Some (x, y) ->
  strcmp fuel m l r = Some (uchar x - uchar y).
Proof.
  induction a as [|c a IH]; intros fuel b m l r x y Ha Hb Hf D; (destruct fuel; [cbn in Hf; lia|]);
    cbn [strcmp]; rewrite !land255.
  - destruct b as [|d b]; [discriminate|]. injection D as <- <-.
    apply cstr_nil in Ha. apply cstr_cons in Hb as (Hd & Hm & _). rewrite Ha, Hm.
    destruct (Z.eqb_spec 0 d); [congruence|]. reflexivity.
  - apply cstr_cons in Ha as (Hc & Hm & Ha). rewrite Hm. destruct b as [|d b]; cbn [first_diff] in D.
    + injection D as <- <-. apply cstr_nil in Hb. rewrite Hb.
      destruct (Z.eqb_spec c 0); [congruence|]. reflexivity.
    + apply cstr_cons in Hb as (Hd & Hm' & Hb). rewrite Hm'.
      destruct (Z.eqb_spec c d) as [->|].
      * destruct (Z.eqb_spec d 0); [congruence|]. cbn [andb negb].
        eapply IH; eauto. cbn [length] in Hf. lia.
      * injection D as <- <-. reflexivity.
Qed.
