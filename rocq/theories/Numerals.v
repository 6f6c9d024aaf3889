(** * Specification of positional numerals (independent of the model). *)
From Coq Require Import ZArith List Lia Bool.
From Verif Require Import Base.
Import ListNotations.
Open Scope Z_scope.

(** The digit a character stands for: 0-9, then letters from 10 on, either case. *)
Definition digit_of (c : Z) : option Z :=
  if (48 <=? c) && (c <=? 57) then Some (c - 48)
  else if (65 <=? c) && (c <=? 90) then Some (c - 55)
  else if (97 <=? c) && (c <=? 122) then Some (c - 87)
  else None.

Definition is_digit (b c : Z) : Prop := exists d, digit_of c = Some d /\ 0 <= d < b.
Definition is_digitb (b c : Z) : bool :=
  match digit_of c with Some d => d <? b | None => false end.

(** The number denoted by the digits [l] in base [b] ([None]: not a digit string). *)
Fixpoint value_from (b acc : Z) (l : list Z) : option Z :=
  match l with
  | [] => Some acc
  | c :: r => match digit_of c with
              | Some d => if d <? b then value_from b (acc * b + d) r else None
              | None => None
              end
  end.

Definition numeral_value (b : Z) (l : list Z) : option Z :=
  match l with [] => None | _ => value_from b 0 l end.

(** Canonical numeral: no leading zero except for the numeral "0". *)
Definition canonical (l : list Z) : Prop := l = [48] \/ exists c r, l = c :: r /\ c <> 48.

Definition denotes (b : Z) (l : list Z) (v : Z) : Prop :=
  numeral_value b l = Some v /\ canonical l.

(** ** Facts *)
Lemma digit_of_nonneg c d : digit_of c = Some d -> 0 <= d.
Proof.
  unfold digit_of. destruct ((48 <=? c) && (c <=? 57)) eqn:E1.
  - intros [= <-]. apply andb_true_iff in E1. bdestr; lia.
  - destruct ((65 <=? c) && (c <=? 90)) eqn:E2.
    + intros [= <-]. apply andb_true_iff in E2. bdestr; lia.
    + destruct ((97 <=? c) && (c <=? 122)) eqn:E3; [|discriminate].
      intros [= <-]. apply andb_true_iff in E3. bdestr; lia.
Qed.

Lemma is_digitb_spec b c : is_digitb b c = true <-> is_digit b c.
Proof.
  unfold is_digitb, is_digit. destruct (digit_of c) eqn:E.
  - rewrite Z.ltb_lt. split.
    + intros. exists z. apply digit_of_nonneg in E as ?. auto.
    + intros (d & [= ->] & ?). lia.
  - split; [discriminate|]. intros (d & ? & _). discriminate.
Qed.

Lemma value_from_app b l1 : forall acc l2,
  value_from b acc (l1 ++ l2) =
  match value_from b acc l1 with Some a => value_from b a l2 | None => None end.
Proof.
  induction l1 as [|c r IH]; intros acc l2; simpl; [reflexivity|].
  destruct (digit_of c) as [d|]; [|reflexivity].
  destruct (d <? b); [apply IH|reflexivity].
Qed.

Lemma value_from_shift b l : forall acc v,
  value_from b 0 l = Some v ->
  value_from b acc l = Some (acc * b ^ Z.of_nat (length l) + v).
Proof.
  assert (G: forall l acc acc' v, value_from b acc' l = Some v ->
     value_from b acc l = Some ((acc - acc') * b ^ Z.of_nat (length l) + v)).
  { clear l. induction l as [|c r IH]; intros acc acc' v; cbn [value_from].
    - intros [= <-]. f_equal. cbn. ring.
    - cbn [length]. rewrite Nat2Z.inj_succ. destruct (digit_of c) as [d|]; [|discriminate].
      destruct (d <? b); [|discriminate].
      intros H. rewrite (IH _ _ _ H). f_equal.
      rewrite Z.pow_succ_r by lia. ring. }
  intros. rewrite (G l acc 0 v H). f_equal. ring.
Qed.

Lemma value_from_digits b l : forall acc v,
  value_from b acc l = Some v -> Forall (is_digit b) l.
Proof.
  induction l as [|c r IH]; intros acc v; simpl; [constructor|].
  destruct (digit_of c) as [d|] eqn:E; [|discriminate].
  destruct (d <? b) eqn:E2; [|discriminate]. intros H.
  constructor; [|eauto]. exists d. apply digit_of_nonneg in E as ?.
  apply Z.ltb_lt in E2. auto.
Qed.

Lemma digits_value_from b l : Forall (is_digit b) l -> forall acc, exists v, value_from b acc l = Some v.
Proof.
  induction 1 as [|c r (d & Hd & Hr) _ IH]; intros acc; simpl; [eauto|].
  rewrite Hd. destruct (Z.ltb_spec d b); [apply IH|lia].
Qed.

Lemma value_from_lb b l : 1 <= b -> forall acc v,
  0 <= acc -> value_from b acc l = Some v -> acc <= v.
Proof.
  intros Hb. induction l as [|c r IH]; intros acc v Ha; simpl.
  - intros [= <-]. lia.
  - destruct (digit_of c) as [d|] eqn:E; [|discriminate].
    apply digit_of_nonneg in E as ?.
    destruct (d <? b) eqn:E2; [|discriminate]. intros H0.
    apply IH in H0; nia.
Qed.

Lemma digit_char d : 0 <= d < 10 -> digit_of (48 + d) = Some d.
Proof.
  intros. unfold digit_of.
  destruct (Z.leb_spec 48 (48 + d)) as [?|?], (Z.leb_spec (48 + d) 57) as [?|?]; cbn [andb]; try lia.
  f_equal; lia.
Qed.

Lemma denotes_snoc b l v d c :
  denotes b l v -> 0 < v -> digit_of c = Some d -> 0 <= d < b ->
  denotes b (l ++ [c]) (v * b + d).
Proof.
  intros (Hv & Hc) Hpos Hd Hr. unfold denotes, numeral_value in *.
  destruct l as [|c0 l]; [discriminate|]. split.
  - change ((c0 :: l) ++ [c]) with (c0 :: (l ++ [c])).
    change (value_from b 0 ((c0 :: l) ++ [c]) = Some (v * b + d)).
    rewrite value_from_app, Hv. simpl. rewrite Hd.
    destruct (Z.ltb_spec d b); [reflexivity|lia].
  - right. destruct Hc as [Hc|(c1 & r & Hc & Hne)].
    + injection Hc as -> ->. simpl in Hv.
      unfold digit_of in Hv. simpl in Hv. destruct (0 <? b); [|discriminate].
      injection Hv as <-. lia.
    + injection Hc as -> ->. exists c1, (r ++ [c]). auto.
Qed.

Lemma denotes_single b d c :
  digit_of c = Some d -> 0 <= d < b -> denotes b [c] d.
Proof.
  intros Hd Hr. split.
  - simpl. rewrite Hd. destruct (Z.ltb_spec d b); [f_equal; lia|lia].
  - destruct (Z.eq_dec c 48); [left; congruence|right; eauto].
Qed.
